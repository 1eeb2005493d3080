(** Proofs about the adaptive stop criterion. *)
From Coq Require Import Reals Lra ZifyBool ZifyNat.
From Flocq Require Import Core.Raux.
From Verif Require Import Base Adaptive_Model.
Local Open Scope R_scope.

Definition st (t : R) (c i0 i1 : Z) (r0 r1 : R) (p : option Z) : adaptive :=
  {| target := t; cap := c; it0 := i0; it1 := i1; res0 := r0; res1 := r1; previous := p |}.

Lemma run_S a r n : run a r (S n) =
  match run a r n with (a', Ok true) => call a' (Z.of_nat (S n)) (r (S n)) | stopped => stopped end.
Proof. reflexivity. Qed.

(** Calls between two checks. *)
Lemma call_between t c i0 i1 r0 r1 p i r :
  (p <= i <= Z.max i0 i1)%Z -> i <> i0 -> i <> i1 -> (i < c)%Z ->
  call (st t c i0 i1 r0 r1 (Some p)) i r = (st t c i0 i1 r0 r1 (Some i), Ok true).
Proof.
  intros Hp H0 H1 Hc. unfold call, st. cbn.
  replace (i <? p)%Z with false by lia. cbn match.
  replace (Z.max i0 i1 <? i)%Z with false by lia. cbn match.
  replace (i =? i0)%Z with false by lia. replace (i =? i1)%Z with false by lia.
  replace (c <=? i)%Z with false by lia. reflexivity.
Qed.

Lemma call_capped t c i0 i1 r0 r1 p i r :
  (p <= i <= Z.max i0 i1)%Z -> i <> i0 -> i <> i1 -> (c <= i)%Z ->
  call (st t c i0 i1 r0 r1 (Some p)) i r = (st t c i0 i1 r0 r1 (Some i), Ok false).
Proof.
  intros Hp H0 H1 Hc. unfold call, st. cbn.
  replace (i <? p)%Z with false by lia. cbn match.
  replace (Z.max i0 i1 <? i)%Z with false by lia. cbn match.
  replace (i =? i0)%Z with false by lia. replace (i =? i1)%Z with false by lia.
  replace (c <=? i)%Z with true by lia. reflexivity.
Qed.

Lemma call_first t c i0 i1 r0 r1 p r :
  (p <= i0)%Z ->
  call (st t c i0 i1 r0 r1 (Some p)) i0 r = (st t c i0 i1 r r1 (Some i0), Ok true).
Proof.
  intros Hp. unfold call, st. cbn.
  replace (i0 <? p)%Z with false by lia. cbn match.
  replace (Z.max i0 i1 <? i0)%Z with false by lia. cbn match.
  rewrite Z.eqb_refl. reflexivity.
Qed.

Lemma call_second_stop t c i0 i1 r0 r1 p r :
  (p <= i1)%Z -> (i0 < i1)%Z -> r < t ->
  call (st t c i0 i1 r0 r1 (Some p)) i1 r = (st t c i0 i1 r0 r (Some i1), Ok false).
Proof.
  intros Hp Hi Hr. unfold call, st. cbn.
  replace (i1 <? p)%Z with false by lia. cbn match.
  replace (Z.max i0 i1 <? i1)%Z with false by lia. cbn match.
  replace (i1 =? i0)%Z with false by lia. rewrite Z.eqb_refl.
  destruct (Rlt_dec r t); [reflexivity|contradiction].
Qed.

Lemma call_second_go t c i0 i1 r0 r1 p r :
  (p <= i1)%Z -> (i0 < i1)%Z -> t <= r ->
  call (st t c i0 i1 r0 r1 (Some p)) i1 r =
  match estimate t r0 r (i1 - i0) with
  | Err e => (st t c i0 i1 r0 r (Some i1), Err e)
  | Ok n => (st t c i1 (i1 + Z.min (Z.max 1 n) i1) r r (Some i1), Ok true)
  end.
Proof.
  intros Hp Hi Hr. unfold call, st. cbn.
  replace (i1 <? p)%Z with false by lia. cbn match.
  replace (Z.max i0 i1 <? i1)%Z with false by lia. cbn match.
  replace (i1 =? i0)%Z with false by lia. rewrite Z.eqb_refl.
  destruct (Rlt_dec r t); [lra|]. destruct (estimate _ _ _ _); reflexivity.
Qed.

(** The first iterations of a run with a new object. *)
Lemma run_1 t c r : run (make t c) r 1 = (st t c 1 1 (r 1%nat) 1 (Some 1%Z), Ok true).
Proof. reflexivity. Qed.

Lemma run_2 t c r : run (make t c) r 2 =
  (st t c 27 52 (r 1%nat) 1 (Some 2%Z), Ok (2 <? c)%Z).
Proof.
  rewrite run_S, run_1. unfold call, st. cbn.
  destruct (Z.leb_spec c 2); [replace (2 <? c)%Z with false by lia|replace (2 <? c)%Z with true by lia]; reflexivity.
Qed.

Lemma run_phase1 t c r n : (2 <= n <= 26)%nat -> (Z.of_nat n < c)%Z ->
  run (make t c) r n = (st t c 27 52 (r 1%nat) 1 (Some (Z.of_nat n)), Ok true).
Proof.
  intros Hn Hc. induction n as [|n IH]; [lia|].
  destruct (Nat.eq_dec n 1) as [->|].
  - rewrite run_2. replace (2 <? c)%Z with true by lia. reflexivity.
  - rewrite run_S, IH by lia. rewrite call_between by lia. reflexivity.
Qed.

Lemma run_27 t c r : (26 < c)%Z ->
  run (make t c) r 27 = (st t c 27 52 (r 27%nat) 1 (Some 27%Z), Ok true).
Proof. intros Hc. rewrite run_S, run_phase1 by lia. apply call_first. lia. Qed.

Lemma run_phase2 t c r n : (27 <= n <= 51)%nat -> (26 < c)%Z -> ((28 <= n)%nat -> (Z.of_nat n < c)%Z) ->
  run (make t c) r n = (st t c 27 52 (r 27%nat) 1 (Some (Z.of_nat n)), Ok true).
Proof.
  intros Hn Hc Hc'. induction n as [|n IH]; [lia|].
  destruct (Nat.eq_dec n 26) as [->|].
  - apply run_27. lia.
  - rewrite run_S, IH by lia. rewrite call_between by lia. reflexivity.
Qed.

Lemma run_52 t c r : (51 < c)%Z ->
  run (make t c) r 52 = call (st t c 27 52 (r 27%nat) 1 (Some 51%Z)) 52 (r 52%nat).
Proof. intros Hc. rewrite run_S, run_phase2 by lia. reflexivity. Qed.

(** ** Stops only for a reason *)
Lemma call_reason a i r a' : call a i r = (a', Ok false) -> r < target a \/ (cap a <= i)%Z.
Proof.
  unfold call. cbn zeta.
  set (i0 := if (Z.max _ _ <? i)%Z then (i + 25)%Z else _).
  set (i1 := if (Z.max _ _ <? i)%Z then (i + 50)%Z else _).
  destruct (i =? i0)%Z; [intros H; injection H; discriminate|].
  destruct (i =? i1)%Z.
  - destruct (Rlt_dec r (target a)); [auto|].
    destruct (estimate _ _ _ _); intros H; injection H; discriminate.
  - destruct (Z.leb_spec (cap a) i); [auto|]. intros H'; injection H'; discriminate.
Qed.

Lemma call_params a i r a' o : call a i r = (a', o) -> target a' = target a /\ cap a' = cap a.
Proof.
  unfold call. cbn zeta.
  set (i0 := if (Z.max _ _ <? i)%Z then (i + 25)%Z else _).
  set (i1 := if (Z.max _ _ <? i)%Z then (i + 50)%Z else _).
  destruct (i =? i0)%Z; [intros H; injection H as <- _; auto|].
  destruct (i =? i1)%Z.
  - destruct (Rlt_dec r (target a)); [intros H; injection H as <- _; auto|].
    destruct (estimate _ _ _ _); intros H; injection H as <- _; auto.
  - destruct (Z.leb_spec (cap a) i); intros H'; injection H' as <- _; auto.
Qed.

Lemma run_params a r n a' o : run a r n = (a', o) -> target a' = target a /\ cap a' = cap a.
Proof.
  revert a' o. induction n as [|n IH]; intros a' o; [cbn; intros H; injection H as <- _; auto|].
  rewrite run_S. destruct (run a r n) as [b o'] eqn:E. specialize (IH _ _ eq_refl).
  destruct o' as [[|]|]; intros H.
  - apply call_params in H. destruct H as [-> ->]. exact IH.
  - injection H as <- _. exact IH.
  - injection H as <- _. exact IH.
Qed.

Lemma run_reason t c r n a : run (make t c) r (S n) = (a, Ok false) -> snd (run (make t c) r n) = Ok true ->
  r (S n) < t \/ (c <= Z.of_nat (S n))%Z.
Proof.
  rewrite run_S. destruct (run (make t c) r n) as [b o] eqn:E. cbn [snd]. intros H ->.
  pose proof (run_params _ _ _ _ _ E) as [Ht Hc]. cbn in Ht, Hc.
  apply call_reason in H. rewrite Ht, Hc in H. exact H.
Qed.

(** ** Stagnation raises *)
Lemma run_stagnates t c r : 0 < t <= r 52%nat -> r 27%nat = r 52%nat -> (51 < c)%Z ->
  exists e, snd (run (make t c) r 52) = Err e.
Proof.
  intros Ht Hr Hc. rewrite run_52 by assumption. rewrite call_second_go by (lia || lra).
  unfold estimate. destruct (Rlt_dec t 0); [lra|]. destruct (Req_EM_T t 0); [lra|].
  destruct (Req_EM_T (r 27%nat) 0); [lra|]. destruct (Req_EM_T (r 52%nat) (r 27%nat)); [|congruence].
  destruct (Req_EM_T (r 52%nat) t); eexists; reflexivity.
Qed.

(** ** Estimates *)
Lemma ln_neg_le x : 0 < x <= 1 -> ln x <= 0.
Proof.
  intros [H0 H1]. destruct (Req_dec x 1) as [->|]; [rewrite ln_1; lra|].
  apply Rlt_le. rewrite <- ln_1. apply ln_increasing; lra.
Qed.

Lemma ln_gt_0 x : 1 < x -> 0 < ln x.
Proof. intros H. rewrite <- ln_1. apply ln_increasing; lra. Qed.

Lemma div_le_1 a b : 0 < a <= b -> 0 < a / b <= 1.
Proof.
  intros H. split; [apply Rdiv_lt_0_compat; lra|].
  apply Rmult_le_reg_r with b; [lra|]. unfold Rdiv. rewrite Rmult_assoc, Rinv_l by lra. lra.
Qed.

Lemma div_gt_1 a b : 0 < a < b -> 1 < b / a.
Proof.
  intros H. apply Rmult_lt_reg_r with a; [lra|]. unfold Rdiv. rewrite Rmult_assoc, Rinv_l by lra. lra.
Qed.

Lemma estimate_increasing t r0 r1 di : 0 < t <= r1 -> 0 < r0 < r1 -> (0 < di)%Z ->
  exists n, estimate t r0 r1 di = Ok n /\ (n <= 0)%Z.
Proof.
  intros Ht Hr Hd. unfold estimate. destruct (Rlt_dec t 0); [lra|]. destruct (Req_EM_T t 0); [lra|].
  destruct (Req_EM_T r0 0); [lra|]. destruct (Req_EM_T r1 r0); [lra|].
  eexists. split; [reflexivity|].
  assert (HA : ln (t / r1) <= 0) by (apply ln_neg_le, div_le_1; lra).
  assert (HB : 0 < ln (r1 / r0)) by (apply ln_gt_0, div_gt_1; lra).
  assert (HD : 0 < IZR di) by (apply IZR_lt; lia).
  set (x := ln (t / r1) / (ln (r1 / r0) / IZR di) + / 2).
  assert (Hx : x <= / 2).
  { unfold x. assert (ln (t / r1) / (ln (r1 / r0) / IZR di) <= 0); [|lra].
    unfold Rdiv at 1. rewrite <- (Rmult_0_l (/ (ln (r1 / r0) / IZR di))).
    apply Rmult_le_compat_r; [|exact HA].
    apply Rlt_le, Rinv_0_lt_compat, Rdiv_lt_0_compat; assumption. }
  destruct (Rle_dec 0 x) as [Hp|Hn].
  - rewrite Ztrunc_floor by exact Hp. apply Z.lt_succ_r. apply lt_IZR.
    apply Rle_lt_trans with x; [apply Zfloor_lb|]. change (IZR (Z.succ 0)) with 1. lra.
  - rewrite Ztrunc_ceil by lra. apply Zceil_glb. lra.
Qed.

(** ** Never stops for increasing residues *)
Lemma run_diverges t c r : 0 < t <= r 52%nat -> 0 < r 27%nat < r 52%nat -> (51 < c)%Z ->
  (forall n, (52 <= n)%nat -> r n < r (S n)) ->
  forall n, snd (run (make t c) r n) = Ok true.
Proof.
  intros Ht Hr Hc Hinc.
  assert (Hge : forall n, (52 <= n)%nat -> r 52%nat <= r n).
  { induction n as [|n IH]; intros Hn; [lia|]. destruct (Nat.eq_dec n 51) as [->|]; [lra|].
    specialize (IH ltac:(lia)). specialize (Hinc n ltac:(lia)). lra. }
  assert (Hlate : forall n, (52 <= n)%nat ->
     run (make t c) r n = (st t c (Z.of_nat n) (Z.of_nat n + 1) (r n) (r n) (Some (Z.of_nat n)), Ok true)).
  { induction n as [|n IH]; intros Hn; [lia|]. destruct (Nat.eq_dec n 51) as [->|].
    - rewrite run_52 by assumption. rewrite call_second_go by (lia || lra).
      destruct (estimate_increasing t (r 27%nat) (r 52%nat) (52 - 27)) as (m & -> & Hm); [lra|lra|lia|].
      replace (Z.min (Z.max 1 m) 52) with 1%Z by lia. reflexivity.
    - rewrite run_S, IH by lia.
      pose proof (Hge (S n) ltac:(lia)). pose proof (Hge n ltac:(lia)). pose proof (Hinc n ltac:(lia)).
      replace (Z.of_nat n + 1)%Z with (Z.of_nat (S n)) by lia.
      rewrite call_second_go by (lia || lra).
      destruct (estimate_increasing t (r n) (r (S n)) (Z.of_nat (S n) - Z.of_nat n)) as (m & -> & Hm); [lra|lra|lia|].
      replace (Z.min (Z.max 1 m) (Z.of_nat (S n))) with 1%Z by lia. reflexivity. }
  intros n. destruct (Nat.le_gt_cases 52 n) as [H|H]; [rewrite Hlate by lia; reflexivity|].
  destruct n as [|[|n]]; [reflexivity|reflexivity|].
  destruct (Nat.le_gt_cases (S (S n)) 26); [rewrite run_phase1 by lia; reflexivity|].
  rewrite run_phase2 by lia. reflexivity.
Qed.

(** ** Geometric convergence *)
Section Geometric.
  Variables (t A q : R) (c : Z).
  Hypothesis (Ht : 0 < t) (HA : 0 < A) (Hq : 0 < q < 1).
  Let r (n : nat) : R := A * q ^ n.

  Lemma geo_pos n : 0 < r n.
  Proof. unfold r. apply Rmult_lt_0_compat; [assumption|]. apply pow_lt. lra. Qed.

  Lemma geo_dec n m : (n < m)%nat -> r m < r n.
  Proof.
    intros H. induction H as [|m Hm IH].
    - unfold r. cbn [pow]. pose proof (pow_lt q n ltac:(lra)).
      assert (q * q ^ n < 1 * q ^ n) by (apply Rmult_lt_compat_r; lra). nra.
    - apply Rlt_trans with (r m); [|exact IH]. unfold r. cbn [pow]. pose proof (pow_lt q m ltac:(lra)).
      assert (q * q ^ m < 1 * q ^ m) by (apply Rmult_lt_compat_r; lra). nra.
  Qed.

  Lemma geo_le n m : (n <= m)%nat -> r m <= r n.
  Proof. intros H. destruct (Nat.eq_dec n m) as [->|]; [lra|]. apply Rlt_le, geo_dec. lia. Qed.

  Lemma ln_r n : ln (r n) = ln A + INR n * ln q.
  Proof.
    unfold r. rewrite ln_mult; [|assumption|apply pow_lt; lra]. rewrite ln_pow by lra. reflexivity.
  Qed.

  Lemma ln_div x y : 0 < x -> 0 < y -> ln (x / y) = ln x - ln y.
  Proof. intros Hx Hy. unfold Rdiv. rewrite ln_mult, ln_Rinv; [lra|assumption|assumption|]. apply Rinv_0_lt_compat. assumption. Qed.

  Lemma lnq_neg : ln q < 0.
  Proof. rewrite <- ln_1. apply ln_increasing; lra. Qed.

  (** The number of iterations left, as a real number. *)
  Definition left_at (n : nat) : R := ln (t / r n) / ln q.

  Lemma left_at_eq n m : left_at n = left_at m + (INR m - INR n).
  Proof.
    unfold left_at. pose proof lnq_neg. rewrite !ln_div by (assumption || apply geo_pos). rewrite !ln_r.
    field. lra.
  Qed.

  Lemma left_at_sign n : r n < t <-> left_at n < 0.
  Proof.
    unfold left_at. pose proof lnq_neg as Hl. pose proof (geo_pos n) as Hp. rewrite ln_div by assumption.
    assert (Hinv : / ln q < 0) by (apply Rinv_lt_0_compat; exact Hl).
    split; intros H.
    - assert (ln (r n) < ln t) by (apply ln_increasing; assumption). unfold Rdiv. nra.
    - apply ln_lt_inv; [assumption|assumption|].
      apply Rnot_le_lt. intros Hle.
      assert (0 <= (ln t - ln (r n)) / ln q); [|lra]. unfold Rdiv. nra.
  Qed.

  Lemma estimate_geo i j : (i < j)%nat -> t <= r j ->
    estimate t (r i) (r j) (Z.of_nat j - Z.of_nat i) = Ok (Zfloor (left_at j + / 2)).
  Proof.
    intros Hij Htr. unfold estimate. pose proof (geo_pos i). pose proof (geo_pos j). pose proof (geo_dec i j Hij).
    destruct (Rlt_dec t 0); [lra|]. destruct (Req_EM_T t 0); [lra|].
    destruct (Req_EM_T (r i) 0); [lra|]. destruct (Req_EM_T (r j) (r i)); [lra|].
    assert (Heq : ln (t / r j) / (ln (r j / r i) / IZR (Z.of_nat j - Z.of_nat i)) = left_at j).
    { unfold left_at. f_equal. rewrite ln_div by assumption. rewrite !ln_r. rewrite minus_IZR, <- !INR_IZR_INZ.
      assert (INR i < INR j) by (apply lt_INR; lia). field. lra. }
    rewrite Heq. f_equal. apply Ztrunc_floor.
    assert (~ left_at j < 0); [|lra]. rewrite <- left_at_sign. lra.
  Qed.

  (** [N] is the first iteration with a residue under the target. *)
  Variable N : nat.
  Hypothesis (HN : r N < t) (HNmin : forall n, (n < N)%nat -> t <= r n).

  Lemma next_check i j : (i < j)%nat -> (j < N)%nat -> exists e,
    estimate t (r i) (r j) (Z.of_nat j - Z.of_nat i) = Ok e /\ (Z.of_nat j + Z.max 1 e <= Z.of_nat N)%Z
    /\ ((e <= 1)%Z -> (N <= j + 2)%nat).
  Proof.
    intros Hij HjN. eexists. split; [apply estimate_geo; [assumption|apply HNmin; assumption]|].
    pose proof (proj1 (left_at_sign N) HN) as HlN.
    pose proof (left_at_eq j N) as Hj.
    set (x := left_at j) in *.
    assert (Hx : x < IZR (Z.of_nat N - Z.of_nat j)) by (rewrite minus_IZR, <- !INR_IZR_INZ; lra).
    split.
    - assert (Zfloor (x + / 2) <= Z.of_nat N - Z.of_nat j)%Z; [|lia].
      apply Z.lt_succ_r, lt_IZR. apply Rle_lt_trans with (x + / 2); [apply Zfloor_lb|].
      rewrite succ_IZR. lra.
    - intros He.
      assert (Hx2 : x < 3 / 2).
      { pose proof (Zfloor_ub (x + / 2)) as Hub. assert (IZR (Zfloor (x + / 2)) <= 1) by (apply IZR_le in He; exact He). lra. }
      apply Nat.le_ngt. intros Hgt.
      assert (Hjj : (j + 2 < N)%nat) by lia. pose proof (HNmin _ Hjj) as Hr.
      assert (~ left_at (j + 2) < 0) as Hl2 by (rewrite <- left_at_sign; lra).
      pose proof (left_at_eq (j + 2) j) as E. rewrite plus_INR in E. cbn [INR] in E. unfold x in Hx2. lra.
  Qed.

  (** State after iteration [m] of the run: the next check is scheduled at [j], not beyond [N]. *)
  Definition scheduled (m : nat) (i j : nat) : Prop :=
    (52 <= i)%nat /\ (i <= m < j)%nat /\ (j <= N)%nat /\
    exists x, run (make t c) r m = (st t c (Z.of_nat i) (Z.of_nat j) (r i) x (Some (Z.of_nat m)), Ok true).

  Lemma scheduled_check i' m j x : (i' < j)%nat -> (52 <= j)%nat -> S m = j -> (j < N)%nat ->
    run (make t c) r m = (st t c (Z.of_nat i') (Z.of_nat j) (r i') x (Some (Z.of_nat m)), Ok true) ->
    exists j', scheduled j j j' /\ ((j' = S j) -> (N <= j + 2)%nat).
  Proof.
    intros Hij Hj Hm HjN Hrun.
    destruct (next_check i' j Hij HjN) as (e & He & Hle & Hsmall).
    exists (Z.to_nat (Z.of_nat j + Z.min (Z.max 1 e) (Z.of_nat j))).
    split.
    - split; [assumption|]. split; [lia|]. split; [lia|]. exists (r j). subst j.
      rewrite run_S, Hrun. rewrite call_second_go; [|lia|lia|apply HNmin; exact HjN].
      rewrite He. unfold st. repeat f_equal. lia.
    - intros Hj'. apply Hsmall. lia.
  Qed.

  Lemma scheduled_step m i j : scheduled m i j ->
    (S m < j)%nat /\ (Z.of_nat (S m) < c)%Z /\ scheduled (S m) i j
    \/ (S m < j)%nat /\ (c <= Z.of_nat (S m))%Z /\ snd (run (make t c) r (S m)) = Ok false
    \/ S m = j /\ (j < N)%nat /\ (exists j', scheduled j j j' /\ ((j' = S j) -> (N <= j + 2)%nat))
    \/ S m = j /\ j = N /\ snd (run (make t c) r (S m)) = Ok false.
  Proof.
    intros (Hi & Hm & HjN & x & Hrun).
    destruct (Nat.eq_dec (S m) j) as [E|E].
    - right; right. destruct (Nat.eq_dec j N) as [E'|E'].
      + right. split; [assumption|]. split; [assumption|]. rewrite run_S, Hrun.
        rewrite <- E. rewrite call_second_stop; [reflexivity|lia|lia|]. rewrite E, E'. exact HN.
      + left. split; [assumption|]. split; [lia|]. eapply scheduled_check; eauto; lia.
    - destruct (Z.lt_ge_cases (Z.of_nat (S m)) c) as [Hc|Hc].
      + left. split; [lia|]. split; [assumption|]. split; [assumption|]. split; [lia|]. split; [lia|].
        exists x. rewrite run_S, Hrun. apply call_between; lia.
      + right; left. split; [lia|]. split; [assumption|]. rewrite run_S, Hrun.
        rewrite call_capped by lia. reflexivity.
  Qed.

  Definition stops_at (n : nat) : Prop :=
    snd (run (make t c) r n) = Ok false /\ forall m, (m < n)%nat -> snd (run (make t c) r m) = Ok true.

  Lemma run_true_before a n : snd (run a r n) = Ok true -> forall m, (m <= n)%nat -> snd (run a r m) = Ok true.
  Proof.
    induction n as [|n IH]; intros H m Hm; [replace m with O by lia; exact H|].
    destruct (Nat.eq_dec m (S n)) as [->|]; [exact H|].
    apply IH; [|lia]. rewrite run_S in H. destruct (run a r n) as [b [[|]|]]; cbn in *; congruence.
  Qed.

  Lemma stops_intro n : snd (run (make t c) r n) = Ok true -> snd (run (make t c) r (S n)) = Ok false -> stops_at (S n).
  Proof. intros H1 H2. split; [exact H2|]. intros m Hm. eapply run_true_before; eauto. lia. Qed.

  Lemma scheduled_true m i j : scheduled m i j -> snd (run (make t c) r m) = Ok true.
  Proof. intros (_ & _ & _ & x & ->). reflexivity. Qed.

  (** From a scheduled state before the cap. *)
  Lemma scheduled_stops m i j : scheduled m i j -> (Z.of_nat m < c)%Z ->
    exists n, stops_at n /\ ((Z.of_nat N < c)%Z -> n = N) /\ ((c <= Z.of_nat N)%Z -> (c <= Z.of_nat n <= c + 2)%Z).
  Proof.
    remember (N - m)%nat as d eqn:Hd. revert m i j Hd.
    induction d as [|d IH]; intros m i j Hd Hs Hmc.
    - destruct Hs as (_ & Hm & HjN & _). lia.
    - pose proof (scheduled_true _ _ _ Hs) as Htrue. pose proof Hs as (Hi & Hm & HjN & _).
      destruct (scheduled_step m i j Hs) as [(H1 & H2 & H3)|[(H1 & H2 & H3)|[(H1 & H2 & j' & H3 & Hj')|(H1 & H2 & H3)]]].
      + apply (IH (S m) i j); [lia|assumption|assumption].
      + exists (S m). split; [apply stops_intro; assumption|]. lia.
      + (* a check at S m = j < N *)
        destruct (Z.lt_ge_cases (Z.of_nat j) c) as [Hc|Hc].
        * apply (IH j j j'); [lia|assumption|assumption].
        * (* j = cap, not stopped: look one further *)
          pose proof (scheduled_true _ _ _ H3) as Htrue'.
          destruct (scheduled_step j j j' H3) as [(K1 & K2 & K3)|[(K1 & K2 & K3)|[(K1 & K2 & j'' & K3 & K4)|(K1 & K2 & K3)]]].
          -- lia.
          -- exists (S j). split; [apply stops_intro; assumption|]. lia.
          -- pose proof (scheduled_true _ _ _ K3) as Htrue''.
             specialize (Hj' (eq_sym K1)).
             pose proof K3 as (L1 & L2 & L3 & _).
             destruct (scheduled_step j' j' j'' K3) as [(M1 & M2 & M3)|[(M1 & M2 & M3)|[(M1 & M2 & M3)|(M1 & M2 & M3)]]];
               try lia.
             exists (S j'). split; [apply stops_intro; assumption|]. lia.
          -- exists (S j). split; [apply stops_intro; assumption|]. lia.
      + exists (S m). split; [apply stops_intro; assumption|]. lia.
  Qed.

  (** The first check with two measurements is at iteration 52, so that is the earliest stop by convergence. *)
  Lemma geometric_stop : (1 <= c)%Z ->
    exists n, stops_at n /\
      ((Z.of_nat (Nat.max 52 N) < c)%Z -> n = Nat.max 52 N) /\
      ((c <= Z.of_nat (Nat.max 52 N))%Z -> (c <= Z.of_nat n <= c + 2)%Z).
  Proof.
    intros Hc1.
    destruct (Z.le_gt_cases c 2) as [H2|H2].
    { exists 2%nat. split; [|lia]. apply stops_intro; [rewrite run_1; reflexivity|]. rewrite run_2.
      replace (2 <? c)%Z with false by lia. reflexivity. }
    destruct (Z.le_gt_cases c 26) as [H26|H26].
    { assert (Hrun : run (make t c) r (Z.to_nat c - 1) = (st t c 27 52 (r 1%nat) 1 (Some (c - 1)%Z), Ok true)).
      { rewrite run_phase1 by lia. unfold st. do 3 f_equal. lia. }
      exists (S (Z.to_nat c - 1)). split; [|lia]. apply stops_intro; [rewrite Hrun; reflexivity|].
      rewrite run_S, Hrun. rewrite call_capped by lia. reflexivity. }
    destruct (Z.eq_dec c 27) as [H27|H27].
    { exists 28%nat. split; [|lia]. apply stops_intro; [rewrite run_27 by lia; reflexivity|].
      rewrite run_S, run_27 by lia. rewrite call_capped by lia. reflexivity. }
    destruct (Z.le_gt_cases c 51) as [H51|H51].
    { assert (Hrun : run (make t c) r (Z.to_nat c - 1) = (st t c 27 52 (r 27%nat) 1 (Some (c - 1)%Z), Ok true)).
      { rewrite run_phase2 by lia. unfold st. do 3 f_equal. lia. }
      exists (S (Z.to_nat c - 1)). split; [|lia]. apply stops_intro; [rewrite Hrun; reflexivity|].
      rewrite run_S, Hrun. rewrite call_capped by lia. reflexivity. }
    assert (H51r : run (make t c) r 51 = (st t c 27 52 (r 27%nat) 1 (Some 51%Z), Ok true)) by (apply run_phase2; lia).
    destruct (Nat.le_gt_cases N 52) as [HN52|HN52].
    { exists 52%nat. split; [|lia]. apply stops_intro; [rewrite H51r; reflexivity|].
      rewrite run_52 by lia. rewrite call_second_stop; [reflexivity|lia|lia|].
      apply Rle_lt_trans with (r N); [|exact HN]. apply geo_le. exact HN52. }
    destruct (scheduled_check 27 51 52 1) as (j' & Hs & Hj'); [lia|lia|lia|lia|exact H51r|].
    replace (Nat.max 52 N) with N by lia.
    destruct (Z.lt_ge_cases 52 c) as [Hc|Hc].
    - apply (scheduled_stops 52 52 j'); [assumption|lia].
    - (* cap = 52 *)
      pose proof (scheduled_true _ _ _ Hs) as Htrue'.
      destruct (scheduled_step 52 52 j' Hs) as [(K1 & K2 & K3)|[(K1 & K2 & K3)|[(K1 & K2 & j'' & K3 & K4)|(K1 & K2 & K3)]]].
      + lia.
      + exists 53%nat. split; [apply stops_intro; assumption|]. lia.
      + pose proof (scheduled_true _ _ _ K3) as Htrue''.
        specialize (Hj' (eq_sym K1)).
        pose proof K3 as (L1 & L2 & L3 & _).
        destruct (scheduled_step j' j' j'' K3) as [(M1 & M2 & M3)|[(M1 & M2 & M3)|[(M1 & M2 & M3)|(M1 & M2 & M3)]]];
          try lia.
        exists (S j'). split; [apply stops_intro; assumption|]. lia.
      + exists 53%nat. split; [apply stops_intro; assumption|]. lia.
  Qed.
End Geometric.

(** ** Reuse *)
Definition sim (a b : adaptive) : Prop :=
  target a = target b /\ cap a = cap b /\ it0 a = it0 b /\ it1 a = it1 b /\ res0 a = res0 b /\ previous a = previous b.

Lemma call_sim a b i r : sim a b -> sim (fst (call a i r)) (fst (call b i r)) /\ snd (call a i r) = snd (call b i r).
Proof.
  intros (H1 & H2 & H3 & H4 & H5 & H6). unfold call. cbn zeta. rewrite H1, H2, H3, H4, H5, H6.
  set (i0 := if (Z.max _ _ <? i)%Z then (i + 25)%Z else _).
  set (i1 := if (Z.max _ _ <? i)%Z then (i + 50)%Z else _).
  destruct (i =? i0)%Z; [cbn; unfold sim; cbn; auto 10|].
  destruct (i =? i1)%Z.
  - destruct (Rlt_dec r (target b)); [cbn; unfold sim; cbn; auto 10|].
    destruct (estimate _ _ _ _); cbn; unfold sim; cbn; auto 10.
  - destruct (Z.leb_spec (cap b) i); cbn; unfold sim; cbn; auto 10.
Qed.

Lemma run_sim a b r n : sim a b -> sim (fst (run a r n)) (fst (run b r n)) /\ snd (run a r n) = snd (run b r n).
Proof.
  intros H. induction n as [|n IH]; [auto|]. rewrite !run_S.
  destruct (run a r n) as [a' o]. destruct (run b r n) as [b' o']. cbn [fst snd] in IH. destruct IH as [Hs ->].
  destruct o' as [[|]|]; [apply call_sim; exact Hs| |]; auto.
Qed.

(** What is known of the object after a run. *)
Definition ready (a : adaptive) : Prop :=
  match previous a with
  | None => it0 a = 1%Z /\ it1 a = 1%Z
  | Some p => (1 < p)%Z \/ (p = 1%Z /\ it0 a = 1%Z /\ it1 a = 1%Z)
  end.

Lemma run_previous a r n : previous (fst (run a r (S n))) <> None.
Proof.
  induction n as [|n IH].
  - rewrite run_S. cbn [run]. unfold call. cbn zeta.
    repeat match goal with |- context [if ?b then _ else _] => destruct b end;
      try (destruct (estimate _ _ _ _)); cbn; discriminate.
  - rewrite run_S. destruct (run a r (S n)) as [b [[|]|]]; cbn [fst] in *; try assumption.
    unfold call. cbn zeta.
    destruct (_ =? _)%Z; [cbn; discriminate|]. destruct (_ =? _)%Z; [|destruct (_ <=? _)%Z; cbn; discriminate].
    destruct (Rlt_dec _ _); [cbn; discriminate|]. destruct (estimate _ _ _ _); cbn; discriminate.
Qed.

Lemma call_prev a i r : previous (fst (call a i r)) = Some i.
Proof.
  unfold call. cbn zeta.
  destruct (_ =? _)%Z; [reflexivity|]. destruct (_ =? _)%Z; [|destruct (_ <=? _)%Z; reflexivity].
  destruct (Rlt_dec _ _); [reflexivity|]. destruct (estimate _ _ _ _); reflexivity.
Qed.

Lemma run_ready t c r n : ready (fst (run (make t c) r n)).
Proof.
  destruct n as [|n]; [cbn; unfold ready; cbn; auto|].
  induction n as [|n IH]; [rewrite run_1; unfold ready; cbn; auto|].
  rewrite run_S. destruct (run (make t c) r (S n)) as [b [[|]|]]; cbn [fst] in *; try exact IH.
  unfold ready. rewrite call_prev. left. lia.
Qed.

Lemma ready_first a r : ready a ->
  call a 1 r = (st (target a) (cap a) 1 1 r (res1 a) (Some 1%Z), Ok true).
Proof.
  intros H. unfold call, ready in *. cbn zeta.
  destruct (previous a) as [p|].
  - destruct H as [H|(-> & -> & ->)].
    + replace (1 <? p)%Z with true by lia. reflexivity.
    + reflexivity.
  - destruct H as [-> ->]. reflexivity.
Qed.

Lemma run_unfold_first a r n : ready a ->
  sim (fst (run a r (S n))) (fst (run (make (target a) (cap a)) r (S n)))
  /\ snd (run a r (S n)) = snd (run (make (target a) (cap a)) r (S n)).
Proof.
  intros Hr. induction n as [|n IH].
  - rewrite run_1. rewrite run_S. cbn [run]. change (Z.of_nat 1) with 1%Z. rewrite ready_first by assumption.
    cbn. unfold sim; cbn; auto 10.
  - rewrite (run_S _ _ (S n)), (run_S (make _ _) _ (S n)).
    destruct (run a r (S n)) as [a' o]. destruct (run (make _ _) r (S n)) as [b' o']. cbn [fst snd] in IH.
    destruct IH as [Hs ->]. destruct o' as [[|]|]; [apply call_sim; exact Hs| |]; auto.
Qed.

Lemma reuse t c r1 n1 r2 n2 :
  snd (run (fst (run (make t c) r1 n1)) r2 n2) = snd (run (make t c) r2 n2).
Proof.
  destruct n2 as [|n2]; [reflexivity|].
  pose proof (run_ready t c r1 n1) as Hr. destruct (run_unfold_first _ r2 n2 Hr) as [_ ->].
  destruct (run (make t c) r1 n1) as [a o] eqn:E. cbn [fst]. apply run_params in E. destruct E as [-> ->]. reflexivity.
Qed.

(** ** No exception when residues never repeat *)
Lemma run_no_error t c r : 0 < t -> (forall n, 0 < r n) -> (forall n m, n <> m -> r n <> r m) ->
  forall n e, snd (run (make t c) r n) <> Err e.
Proof.
  intros Ht Hpos Hdist.
  assert (Hearly : forall n, (n <= 26)%nat -> (exists x y, run (make t c) r n = (st t c 27 52 x y (Some (Z.of_nat n)), Ok true))
     \/ (n <= 1)%nat /\ snd (run (make t c) r n) = Ok true \/ snd (run (make t c) r n) = Ok false).
  { induction n as [|n IH]; intros Hn; [auto|]. destruct n as [|n]; [auto|].
    destruct n as [|n].
    - rewrite run_2. destruct (2 <? c)%Z; [left; eauto|right; right; reflexivity].
    - destruct IH as [(x & y & E)|[[H _]|H]]; [lia| |lia|].
      + rewrite run_S, E. destruct (Z.lt_ge_cases (Z.of_nat (S (S (S n)))) c).
        * left. exists x, y. apply call_between; lia.
        * right; right. rewrite call_capped by lia. reflexivity.
      + right; right. rewrite run_S. destruct (run (make t c) r (S (S n))) as [a [[|]|]]; cbn in *; congruence. }
  assert (Hlate : forall n, (27 <= n)%nat ->
     (exists i j x, (i <= n < j)%nat /\ (1 <= i)%nat /\
        run (make t c) r n = (st t c (Z.of_nat i) (Z.of_nat j) (r i) x (Some (Z.of_nat n)), Ok true))
     \/ snd (run (make t c) r n) = Ok false).
  { induction n as [|n IH]; intros Hn; [lia|].
    destruct (Nat.eq_dec n 26) as [->|].
    - destruct (Hearly 26%nat) as [(x & y & E)|[[H _]|H]]; [lia| |lia|].
      + left. exists 27%nat, 52%nat, y. split; [lia|]. split; [lia|]. rewrite run_S, E. apply call_first. lia.
      + right. rewrite run_S. destruct (run (make t c) r 26) as [a [[|]|]]; cbn in *; congruence.
    - destruct IH as [(i & j & x & Hi & Hi1 & E)|H]; [lia| |].
      + rewrite run_S, E. destruct (Nat.eq_dec (S n) j) as [->|Hne].
        * destruct (Rlt_dec (r j) t).
          -- right. rewrite call_second_stop by (lia || lra). reflexivity.
          -- rewrite call_second_go by (lia || lra). unfold estimate.
             destruct (Rlt_dec t 0); [lra|]. destruct (Req_EM_T t 0); [lra|].
             pose proof (Hpos i). destruct (Req_EM_T (r i) 0); [lra|].
             destruct (Req_EM_T (r j) (r i)) as [E'|]; [exfalso; apply (Hdist j i); [lia|exact E']|].
             left. match goal with |- context [Z.min (Z.max 1 ?e) _] => set (d := e) end.
             exists j, (Z.to_nat (Z.of_nat j + Z.min (Z.max 1 d) (Z.of_nat j))), (r j).
             split; [lia|]. split; [lia|]. unfold st. repeat f_equal. lia.
        * destruct (Z.lt_ge_cases (Z.of_nat (S n)) c).
          -- left. exists i, j, x. split; [lia|]. split; [lia|]. apply call_between; lia.
          -- right. rewrite call_capped by lia. reflexivity.
      + right. rewrite run_S. destruct (run (make t c) r n) as [a [[|]|]]; cbn in *; congruence. }
  intros n e. destruct (Nat.le_gt_cases n 26) as [H|H].
  - destruct (Hearly n H) as [(x & y & ->) | [(_ & ->) | -> ] ]; discriminate.
  - destruct (Hlate n ltac:(lia)) as [(i & j & x & _ & _ & ->) | -> ]; discriminate.
Qed.

(** ** Witnesses *)
Lemma diverges_witness : exists (t : R) (r : nat -> R), 0 < t /\ (forall n, 0 < r n) /\
  forall c, (51 < c)%Z -> forall n, snd (run (make t c) r n) = Ok true.
Proof.
  exists 1, (fun n => INR n + 1). split; [lra|]. split; [intros n; pose proof (pos_INR n); lra|].
  intros c Hc n. apply run_diverges; [pose proof (pos_INR 52); lra| |assumption|].
  - split; [pose proof (pos_INR 27); lra|]. apply Rplus_lt_compat_r, lt_INR. lia.
  - intros m _. rewrite S_INR. lra.
Qed.
