(** Proofs about grids made from ranges in double precision. *)
From Coq Require Import ZArith Reals Lia Lra Psatz List Bool ZifyBool ZifyNat.
From Flocq Require Import Core.Core IEEE754.BinarySingleNaN.
From Verif Require Import Base Num Grid_Model Grid_Proofs Float_Model Float_Spec Float_Basics Float_Proofs Float_Accuracy
  Float_Construct Float_Derived Ranges_Spec.
Import ListNotations.
Local Open Scope R_scope.
Ltac Zify.zify_post_hook ::= Z.div_mod_to_equations.

Local Notation u := unit_roundoff.
Local Notation eta := smallest.

Lemma abs_pow k x : (-1074 <= k)%Z -> Rabs x <= bpow radix2 k -> Rabs (rnd x) <= bpow radix2 k.
Proof.
  intros Hk H. apply Rabs_le_inv in H.
  assert (rnd (bpow radix2 k) = bpow radix2 k) as E by (apply rnd_fmt, generic_format_bpow; unfold FLT_exp; lia).
  apply Rabs_le. split.
  - rewrite <- E, <- rnd_opp. apply rnd_le. lra.
  - rewrite <- E. apply rnd_le. lra.
Qed.
Lemma abs_in_range k x : (-1074 <= k < 1024)%Z -> Rabs x <= bpow radix2 k -> Rabs (rnd x) < bpow radix2 1024.
Proof. intros Hk H. eapply Rle_lt_trans; [apply (abs_pow k); [lia|exact H]|]. apply bpow_lt. lia. Qed.
Lemma rnd_abs x : Rabs (rnd x) = rnd (Rabs x).
Proof.
  unfold Rabs at 2. destruct (Rcase_abs x) as [N|P].
  - rewrite rnd_opp. apply Rabs_left1. rewrite <- rnd_0. apply rnd_le. lra.
  - apply Rabs_pos_eq. rewrite <- rnd_0. apply rnd_le. lra.
Qed.

(** Multiplying with a flag. *)
Lemma flag_mul (b : bool) x : finite x ->
  finite (nmul BN (bnum BN b) x) /\ val (nmul BN (bnum BN b) x) = if b then val x else 0.
Proof.
  intros F. destruct b; unfold bnum; [apply one_mul; exact F|].
  assert (val (nofZ BN 0) = 0) as V0 by (apply ofZ_eq; lia).
  assert (finite (nmul BN (nofZ BN 0) x)) as G.
  { apply mul_fin; auto. apply ofZ_fin; lia. rewrite V0, Rmult_0_l, rnd_0, Rabs_R0. apply bpow_gt_0. }
  split; [exact G|]. destruct (mul_val _ _ G) as (_ & _ & V). rewrite V, V0, Rmult_0_l. apply rnd_0.
Qed.
Lemma flag_pick (b : bool) x y : finite x -> finite y ->
  finite (nadd BN (nmul BN (bnum BN b) x) (nmul BN (bnum BN (negb b)) y)) /\
  val (nadd BN (nmul BN (bnum BN b) x) (nmul BN (bnum BN (negb b)) y)) = if b then val x else val y.
Proof.
  intros Fx Fy. destruct (flag_mul b x Fx) as [F1 V1]. destruct (flag_mul (negb b) y Fy) as [F2 V2].
  assert (rnd (val (nmul BN (bnum BN b) x) + val (nmul BN (bnum BN (negb b)) y)) = if b then val x else val y) as E.
  { rewrite V1, V2. destruct b; cbn [negb]; rewrite ?Rplus_0_r, ?Rplus_0_l; apply rnd_fmt, fmt_val. }
  assert (finite (nadd BN (nmul BN (bnum BN b) x) (nmul BN (bnum BN (negb b)) y))) as G.
  { apply add_fin; auto. rewrite E. destruct b; apply val_bound. }
  split; [exact G|]. destruct (add_val _ _ G) as (_ & _ & V). rewrite V. exact E.
Qed.

(** What [from_ranges] makes of one range. *)
Definition r_first (r : list BN) : BN := item r 0.
Definition r_before (r : list BN) : BN := item r ((length r - 1) / 2).
Definition r_after (r : list BN) : BN := item r (if Nat.ltb (length r) 2 then 0 else length r - length r / 2)%nat.
Definition r_last (r : list BN) : BN := item r (length r - 1).
Definition r_natural (r : list BN) : bool :=
  nleb BN (nabs (nsub BN (r_before r) (r_after r))) (nabs (nsub BN (r_last r) (r_first r))).
Definition r_extent (r : list BN) : BN :=
  nadd BN (nmul BN (bnum BN (r_natural r)) (nsub BN (r_last r) (r_first r)))
          (nmul BN (bnum BN (negb (r_natural r))) (nsub BN (r_before r) (r_after r))).
Definition r_step (r : list BN) : BN :=
  ndiv BN (r_extent r) (nofZ BN (Z.of_nat (length r) - 1 + (if Nat.leb (length r) 1 then 1 else 0))).
Definition r_center (r : list BN) : BN :=
  nadd BN (nmul BN (bnum BN (r_natural r))
             (nadd BN (nmul BN (bnum BN (Nat.odd (length r))) (r_before r))
                      (nmul BN (bnum BN (negb (Nat.odd (length r)))) (r_after r))))
          (nmul BN (bnum BN (negb (r_natural r))) (r_first r)).

Lemma nth_length_map {A B} (f : A -> B) l i a b : (i < length l)%nat -> nth i (map f l) b = f (nth i l a).
Proof. intros H. rewrite (nth_indep _ b (f a)) by (rewrite map_length; exact H). apply map_nth. Qed.

Lemma from_ranges_axes d (ranges : list (list BN)) : (1 <= length ranges)%nat ->
  (forall i, (i < length ranges)%nat -> countable (nth i ranges [])) ->
  exists g, from_ranges BN d ranges = Ok g /\ ndim BN g = length ranges /\
    forall i, (i < length ranges)%nat ->
      let r := nth i ranges [] in
      shape BN g i = Z.of_nat (length r) /\ spacing g i = r_step r /\ middle g i = r_center r /\
      origin_at_center BN g i = r_natural r /\ center_at_index BN g i = true.
Proof.
  intros P H.
  assert (existsb (fun r : list BN => Nat.eqb (length r) 0) ranges = false) as E.
  { apply not_true_is_false. intros K. apply existsb_exists in K. destruct K as (r & I & Z).
    apply Nat.eqb_eq in Z. apply (In_nth _ _ []) in I. destruct I as (i & Hi & <-).
    destruct (H i Hi) as [L _]. lia. }
  unfold from_ranges. rewrite E.
  set (a := {| a_shape := _ |}).
  destruct (to_ndim_b_list (length ranges) (map r_natural ranges)) as (oac & Eo & Ho); [apply map_length|].
  destruct (given_flags a (length ranges) (map (fun r => Z.of_nat (length r)) ranges) DFlt d (map r_step ranges)
              (Some (map r_center ranges)) (fun _ => false) oac (fun _ => true)) as (g & C & N & _ & _ & G).
  - exact P.
  - apply map_length.
  - unfold counted. apply Forall_forall. intros z I. apply in_map_iff in I. destruct I as (r & <- & I).
    apply (In_nth _ _ []) in I. destruct I as (i & Hi & <-). destruct (H i Hi) as [L1 L2]. lia.
  - apply map_length.
  - intros l El. injection El as <-. apply map_length.
  - unfold a. cbn [a_shape]. rewrite map_map. reflexivity.
  - reflexivity.
  - reflexivity.
  - reflexivity.
  - reflexivity.
  - reflexivity.
  - reflexivity.
  - reflexivity.
  - exact Eo.
  - reflexivity.
  - reflexivity.
  - exists g. split; [exact C|]. split; [exact N|]. intros i Hi.
    destruct (G i Hi) as (G1 & G2 & G3 & _ & G5 & G6).
    rewrite (nth_length_map _ _ _ []) in G1 by exact Hi. unfold item in G2, G3.
    rewrite (nth_length_map _ _ _ []) in G2 by exact Hi. rewrite (nth_length_map _ _ _ []) in G3 by exact Hi.
    split; [exact G1|]. split; [exact G2|]. split; [exact G3|]. split; [|exact G6].
    rewrite G5, Ho by exact Hi. apply nth_length_map. exact Hi.
Qed.

(** The numbers on one axis. *)
Section Axis.
  Variables (o : bool) (r : list BN) (c h d M : R).
  Hypothesis (Cr : countable r) (Sp : spaced o r c h d M) (Mo : moderate M).
  Let n := length r.

  Lemma entry_fin j : (j < n)%nat -> finite (item r j).
  Proof. intros H. apply (Sp j H). Qed.
  Lemma entry_abs j : (j < n)%nat -> Rabs (entry r j) <= M.
  Proof. intros H. apply (Sp j H). Qed.
  Lemma entry_dev j : (j < n)%nat -> Rabs (entry r j - (c + IZR (steps o n j) * h)) <= d.
  Proof. intros H. apply (Sp j H). Qed.
  Lemma size_pos : (1 <= n)%nat.
  Proof. apply Cr. Qed.
  Lemma M_pos : 0 <= M.
  Proof. pose proof (entry_abs 0 size_pos). pose proof (Rabs_pos (entry r 0)). lra. Qed.
  Lemma d_pos : 0 <= d.
  Proof. pose proof (entry_dev 0 size_pos) as H. pose proof (Rabs_pos (entry r 0 - (c + IZR (steps o n 0) * h))). lra. Qed.

  Lemma pow2 k x : (k <= 20)%Z -> 0 <= x -> x <= bpow radix2 k -> x * M <= bpow radix2 1020.
  Proof.
    intros Hk P H. apply Rle_trans with (bpow radix2 k * bpow radix2 1000).
    - apply Rmult_le_compat; auto using M_pos.
    - rewrite <- bpow_plus. apply bpow_le. lia.
  Qed.

  Lemma difference j l : (j < n)%nat -> (l < n)%nat ->
    finite (nsub BN (item r j) (item r l)) /\ val (nsub BN (item r j) (item r l)) = rnd (entry r j - entry r l) /\
    Rabs (entry r j - entry r l) <= 2 * M /\
    Rabs (entry r j - entry r l - IZR (steps o n j - steps o n l) * h) <= 2 * d /\
    Rabs (rnd (entry r j - entry r l) - (entry r j - entry r l)) <= 2 * u * M.
  Proof.
    intros Hj Hl.
    assert (Rabs (entry r j - entry r l) <= 2 * M) as B.
    { pose proof (entry_abs j Hj) as A1. pose proof (entry_abs l Hl) as A2.
      apply Rabs_le. apply Rabs_le_inv in A1. apply Rabs_le_inv in A2. lra. }
    assert (finite (nsub BN (item r j) (item r l))) as F.
    { apply sub_fin; [apply entry_fin; exact Hj|apply entry_fin; exact Hl|].
      apply (abs_in_range 1020); [lia|]. eapply Rle_trans; [exact B|]. apply (pow2 1); [lia|lra|cbn; lra]. }
    split; [exact F|]. split; [apply (sub_val _ _ F)|]. split; [exact B|]. split.
    - pose proof (entry_dev j Hj) as A1. pose proof (entry_dev l Hl) as A2. rewrite minus_IZR.
      apply Rabs_le. apply Rabs_le_inv in A1. apply Rabs_le_inv in A2. lra.
    - pose proof (rnd_error_add (entry r j) (- entry r l)) as E. unfold Rminus.
      eapply Rle_trans; [apply E|].
      + apply fmt_val.
      + apply generic_format_opp, fmt_val.
      + pose proof u_pos. replace (2 * u * M) with (u * (2 * M)) by ring. apply Rmult_le_compat_l; [lra|]. exact B.
  Qed.

  (** The indices used. *)
  Let ib := ((n - 1) / 2)%nat.
  Let ia := (if Nat.ltb n 2 then 0 else n - n / 2)%nat.
  Lemma ib_lt : (ib < n)%nat.
  Proof. pose proof size_pos. unfold ib. lia. Qed.
  Lemma ia_lt : (ia < n)%nat.
  Proof. pose proof size_pos. unfold ia. destruct (Nat.ltb_spec n 2); lia. Qed.
  Lemma il_lt : (n - 1 < n)%nat.
  Proof. pose proof size_pos. lia. Qed.

  (** The order is recognised. *)
  Lemma natural_compare : r_natural r = true <->
    rnd (Rabs (entry r ib - entry r ia)) <= rnd (Rabs (entry r (n - 1) - entry r 0)).
  Proof.
    destruct (difference ib ia ib_lt ia_lt) as (F1 & V1 & _).
    destruct (difference (n - 1) 0 il_lt size_pos) as (F2 & V2 & _).
    destruct (abs_val _ F1) as [F1' V1']. destruct (abs_val _ F2) as [F2' V2'].
    unfold r_natural. fold n. unfold r_before, r_after, r_last, r_first. fold n ib ia.
    rewrite (leb_val _ _ F1' F2'), V1', V2', V1, V2, !rnd_abs. reflexivity.
  Qed.
End Axis.

Lemma natural_monotone r c h d M : countable r -> spaced true r c h d M -> moderate M -> monotone r -> r_natural r = true.
Proof.
  intros Cr Sp Mo Mn. pose proof (natural_compare true r c h d M Cr Sp Mo) as [_ K]. apply K, rnd_le.
  destruct Cr as [P _]. set (n := length r) in *.
  assert (((n - 1) / 2 < n)%nat) by lia.
  assert ((if Nat.ltb n 2 then 0 else n - n / 2) < n)%nat by (destruct (Nat.ltb_spec n 2); lia).
  assert ((n - 1) / 2 <= (if Nat.ltb n 2 then 0 else n - n / 2))%nat by (destruct (Nat.ltb_spec n 2); lia).
  set (ia := if Nat.ltb n 2 then 0%nat else (n - n / 2)%nat) in *. set (ib := ((n - 1) / 2)%nat) in *.
  destruct Mn as [U|D].
  - pose proof (U 0%nat ib ltac:(fold n; lia)). pose proof (U ib ia ltac:(fold n; lia)). pose proof (U ia (n - 1)%nat ltac:(fold n; lia)).
    rewrite Rabs_left1, Rabs_pos_eq; lra.
  - pose proof (D 0%nat ib ltac:(fold n; lia)). pose proof (D ib ia ltac:(fold n; lia)). pose proof (D ia (n - 1)%nat ltac:(fold n; lia)).
    rewrite Rabs_pos_eq, Rabs_left1; lra.
Qed.

Lemma abs_steps x z h e : Rabs (x - IZR z * h) <= e ->
  Rabs (IZR z) * Rabs h - e <= Rabs x <= Rabs (IZR z) * Rabs h + e.
Proof.
  intros H. rewrite <- Rabs_mult. pose proof (Rabs_triang (x - IZR z * h) (IZR z * h)) as T1.
  pose proof (Rabs_triang (- (x - IZR z * h)) x) as T2. rewrite Rabs_Ropp in T2.
  replace (x - IZR z * h + IZR z * h) with x in T1 by ring.
  replace (- (x - IZR z * h) + x) with (IZR z * h) in T2 by ring. lra.
Qed.

Lemma natural_spread r c h d M : countable r -> spaced true r c h d M -> moderate M -> 4 * d <= Rabs h -> r_natural r = true.
Proof.
  intros Cr Sp Mo W. pose proof (natural_compare true r c h d M Cr Sp Mo) as [_ K]. apply K, rnd_le.
  destruct Cr as [P Q]. set (n := length r) in *.
  destruct (Nat.le_gt_cases n 2) as [S|S].
  - assert (n = 1 \/ n = 2)%nat as [E|E] by lia; rewrite E; cbn; [lra|]. rewrite Rabs_minus_sym. lra.
  - destruct (Nat.ltb_spec n 2); [lia|].
    pose proof (difference true r c h d M (conj P Q) Sp Mo ((n - 1) / 2) (n - n / 2)) as A. fold n in A.
    destruct A as (_ & _ & _ & A & _); [lia|lia|].
    pose proof (difference true r c h d M (conj P Q) Sp Mo (n - 1) 0) as B. fold n in B.
    destruct B as (_ & _ & _ & B & _); [lia|lia|].
    unfold steps in A, B. apply abs_steps in A. apply abs_steps in B.
    assert (Rabs (IZR (Z.of_nat ((n - 1) / 2) - Z.of_nat (n / 2) - (Z.of_nat (n - n / 2) - Z.of_nat (n / 2)))) = 1) as E1.
    { rewrite <- abs_IZR. f_equal. lia. }
    assert (2 <= Rabs (IZR (Z.of_nat (n - 1) - Z.of_nat (n / 2) - (Z.of_nat 0 - Z.of_nat (n / 2))))) as E2.
    { rewrite <- abs_IZR. apply IZR_le. lia. }
    pose proof (Rabs_pos h).
    assert (2 * Rabs h <= Rabs (IZR (Z.of_nat (n - 1) - Z.of_nat (n / 2) - (Z.of_nat 0 - Z.of_nat (n / 2)))) * Rabs h)
      by (apply Rmult_le_compat_r; lra). rewrite E1 in A. lra.
Qed.

Lemma fft_recognised r c h d M : countable r -> (3 <= length r)%nat -> spaced false r c h d M -> moderate M ->
  4 * d + 8 * u * M < Rabs h -> r_natural r = false.
Proof.
  intros Cr P3 Sp Mo W. apply not_true_is_false. intros K.
  apply (natural_compare false r c h d M Cr Sp Mo) in K. pose proof (M_pos false r c h d M Cr Sp) as M0. destruct Cr as [P Q]. set (n := length r) in *.
  destruct (Nat.ltb_spec n 2); [lia|].
  pose proof (difference false r c h d M (conj P Q) Sp Mo ((n - 1) / 2) (n - n / 2)) as A. fold n in A.
  destruct A as (_ & _ & _ & A & A'); [lia|lia|].
  pose proof (difference false r c h d M (conj P Q) Sp Mo (n - 1) 0) as B. fold n in B.
  destruct B as (_ & _ & _ & B & B'); [lia|lia|].
  unfold steps in A, B. apply abs_steps in A. apply abs_steps in B.
  destruct (Nat.ltb_spec (2 * ((n - 1) / 2)) n); [|lia].
  destruct (Nat.ltb_spec (2 * (n - n / 2)) n); [lia|].
  destruct (Nat.ltb_spec (2 * (n - 1)) n); [lia|].
  destruct (Nat.ltb_spec (2 * 0) n); [|lia].
  assert (2 <= Rabs (IZR (Z.of_nat ((n - 1) / 2) - (Z.of_nat (n - n / 2) - Z.of_nat n)))) as E1.
  { rewrite <- abs_IZR. apply IZR_le. lia. }
  assert (Rabs (IZR (Z.of_nat (n - 1) - Z.of_nat n - Z.of_nat 0)) = 1) as E2.
  { rewrite <- abs_IZR. f_equal. lia. }
  pose proof (Rabs_pos h). rewrite <- !rnd_abs in K.
  assert (2 * Rabs h <= Rabs (IZR (Z.of_nat ((n - 1) / 2) - (Z.of_nat (n - n / 2) - Z.of_nat n))) * Rabs h)
    by (apply Rmult_le_compat_r; lra). rewrite E2 in B.
  set (x := entry r ((n - 1) / 2) - entry r (n - n / 2)) in *. set (y := entry r (n - 1) - entry r 0) in *.
  pose proof (Rabs_triang (rnd y - y) y) as T1. replace (rnd y - y + y) with (rnd y) in T1 by ring.
  pose proof (Rabs_triang (- (rnd x - x)) (rnd x)) as T2. rewrite Rabs_Ropp in T2. replace (- (rnd x - x) + rnd x) with x in T2 by ring.
  pose proof u_pos. assert (0 <= u * M) by (apply Rmult_le_pos; lra). lra.
Qed.

(** The step and the center. *)
Section Accuracy.
  Variables (o : bool) (r : list BN) (c h d M : R).
  Hypothesis (Cr : countable r) (Sp : spaced o r c h d M) (Mo : moderate M).
  Hypothesis (No : r_natural r = o) (Lo : o = false -> (3 <= length r)%nat).
  Let n := length r.
  Let nc := if o then (n / 2)%nat else 0%nat.

  Lemma nc_lt : (nc < n)%nat.
  Proof using Cr. clear - Cr. destruct Cr as [P _]. unfold nc. fold n in P. destruct o; lia. Qed.
  Lemma nc_steps : steps o n nc = 0%Z.
  Proof using Cr. clear - Cr. destruct Cr as [P _]. fold n in P. unfold steps, nc. destruct o; [lia|]. destruct (Nat.ltb_spec (2 * 0) n); lia. Qed.

  Lemma center_picked : finite (r_center r) /\ val (r_center r) = entry r nc.
  Proof.
    pose proof (entry_fin o r c h d M Sp) as F. destruct Cr as [P _]. fold n in P, F.
    assert (finite (r_before r)) as Fb by (apply F; fold n; lia).
    assert (finite (r_after r)) as Fa by (apply F; fold n; destruct (Nat.ltb_spec n 2); lia).
    assert (finite (r_first r)) as Ff by (apply F; fold n; lia).
    destruct (flag_pick (Nat.odd n) _ _ Fb Fa) as [F1 V1].
    destruct (flag_pick (r_natural r) _ _ F1 Ff) as [F2 V2].
    unfold r_center. fold n. split; [exact F2|]. rewrite V2, V1, No. unfold nc.
    destruct o; [|reflexivity].
    unfold r_before, r_after. fold n. destruct (Nat.odd n) eqn:E.
    - unfold entry. f_equal. f_equal. apply Nat.odd_spec in E. destruct E as [m E]. lia.
    - unfold entry. f_equal. f_equal. rewrite <- Nat.negb_even in E. apply negb_false_iff, Nat.even_spec in E.
      destruct E as [m E]. destruct (Nat.ltb_spec n 2); lia.
  Qed.

  Lemma extent_picked : finite (r_extent r) /\ exists E, Rabs E <= 2 * M /\ Rabs (E - INR (n - 1) * h) <= 2 * d /\
    val (r_extent r) = rnd E /\ Rabs (rnd E - E) <= 2 * u * M /\ (n = 1%nat -> E = 0).
  Proof.
    pose proof (difference o r c h d M Cr Sp Mo) as D. destruct Cr as [P _]. fold n in P, D.
    destruct (D (n - 1)%nat 0%nat) as (F1 & V1 & A1 & B1 & C1); [lia|lia|].
    destruct (D ((n - 1) / 2)%nat (if Nat.ltb n 2 then 0 else n - n / 2)%nat) as (F2 & V2 & A2 & B2 & C2);
      [lia|destruct (Nat.ltb_spec n 2); lia|].
    destruct (flag_pick (r_natural r) _ _ F1 F2) as [F V]. unfold r_extent, r_last, r_first, r_before, r_after. fold n.
    split; [exact F|]. rewrite V, No. rewrite INR_IZR_INZ. unfold steps in B1, B2. destruct o.
    - exists (entry r (n - 1) - entry r 0). split; [exact A1|]. split; [|split; [exact V1|split; [exact C1|]]].
      + replace (Z.of_nat (n - 1)) with (Z.of_nat (n - 1) - Z.of_nat (n / 2) - (Z.of_nat 0 - Z.of_nat (n / 2)))%Z by lia. exact B1.
      + intros E. rewrite E. cbn. ring.
    - specialize (Lo eq_refl). fold n in Lo.
      eexists. split; [exact A2|]. split; [|split; [exact V2|split; [exact C2|]]].
      + destruct (Nat.ltb_spec n 2); [lia|].
        destruct (Nat.ltb_spec (2 * ((n - 1) / 2)) n); [|lia].
        destruct (Nat.ltb_spec (2 * (n - n / 2)) n); [lia|].
        replace (Z.of_nat (n - 1)) with (Z.of_nat ((n - 1) / 2) - (Z.of_nat (n - n / 2) - Z.of_nat n))%Z by lia. exact B2.
      + lia.
  Qed.

  Let m := (Z.of_nat n - 1 + (if Nat.leb n 1 then 1 else 0))%Z.
  Lemma m_bounds : (1 <= m <= 2 ^ 53)%Z.
  Proof using Cr. clear - Cr. destruct Cr as [P Q]. fold n in P, Q. unfold m. destruct (Nat.leb_spec n 1); lia. Qed.

  Lemma step_accurate : finite (r_step r) /\
    INR (n - 1) * Rabs (val (r_step r) - h) <= 2 * d + 5 * u * M + INR n * eta /\
    INR n * Rabs (val (r_step r)) <= 5 * M + INR n * eta.
  Proof.
    destruct extent_picked as (Fe & E & A & B & V & D & Z). pose proof m_bounds as Mb.
    pose proof (M_pos o r c h d M Cr Sp) as M0. pose proof u_pos as U0. pose proof u_small as U1. pose proof smallest_pos as S0.
    assert (val (nofZ BN m) = IZR m) as Vm by (apply ofZ_eq; lia).
    assert (1 <= IZR m) as Pm by (apply IZR_le; lia).
    assert (0 <= u * M) as uM by (apply Rmult_le_pos; lra).
    assert (u * M <= / 1024 * M) as uM1 by (apply Rmult_le_compat_r; lra).
    assert (Rabs (rnd E) <= 2 * M + 2 * (u * M)) as Ae.
    { pose proof (Rabs_triang (rnd E - E) E) as T. replace (rnd E - E + E) with (rnd E) in T by ring. lra. }
    assert (Rabs (rnd E / IZR m) <= Rabs (rnd E)) as Aq.
    { unfold Rdiv. rewrite Rabs_mult, Rabs_inv, (Rabs_pos_eq (IZR m)) by lra.
      rewrite <- (Rmult_1_r (Rabs (rnd E))) at 2. apply Rmult_le_compat_l; [apply Rabs_pos|].
      rewrite <- Rinv_1. apply Rinv_le_contravar; lra. }
    assert (finite (r_step r)) as Fs.
    { unfold r_step. fold n m. apply div_fin; [exact Fe|rewrite Vm; lra|]. rewrite Vm, V.
      apply (abs_in_range 1020); [lia|]. eapply Rle_trans; [exact Aq|].
      apply Rle_trans with (4 * M); [lra|]. apply (pow2 o r c h d M Cr Sp Mo 2); [lia|lra|cbn; lra]. }
    split; [exact Fs|].
    assert (val (r_step r) = rnd (rnd E / IZR m)) as Vs.
    { unfold r_step in *. fold n m in Fs |- *. assert (val (nofZ BN m) <> 0) as Nz by (rewrite Vm; lra).
      destruct (div_val _ _ Nz Fs) as [_ W]. rewrite W, Vm, V. reflexivity. }
    rewrite Vs. set (q := rnd E / IZR m) in *.
    assert (IZR m * q = rnd E) as Eq by (unfold q; field; lra).
    pose proof (rnd_error q) as Rq.
    assert (IZR m * Rabs (rnd q - q) <= u * Rabs (rnd E) + IZR m * (/ 2 * eta)) as Rm.
    { apply Rle_trans with (IZR m * (u * Rabs q + / 2 * eta)); [apply Rmult_le_compat_l; lra|].
      rewrite <- Eq, Rabs_mult, (Rabs_pos_eq (IZR m)) by lra. lra. }
    assert (u * Rabs (rnd E) <= u * (2 * M + 2 * (u * M))) as Re by (apply Rmult_le_compat_l; lra).
    assert (u * (u * M) <= / 1024 * (u * M)) as uuM by (apply Rmult_le_compat_r; lra).
    destruct (Nat.le_gt_cases n 1) as [N1|N1].
    - destruct Cr as [P _]. fold n in P. assert (n = 1%nat) as En by lia.
      assert (q = 0) as Q0 by (unfold q; rewrite (Z En), rnd_0; unfold Rdiv; ring).
      rewrite Q0, rnd_0, Rabs_R0. rewrite En. cbn [Nat.sub INR]. pose proof (d_pos o r c h d M Cr Sp). lra.
    - assert (IZR m = INR (n - 1)) as Em.
      { rewrite INR_IZR_INZ. f_equal. unfold m. destruct (Nat.leb_spec n 1); lia. }
      assert (INR n = INR (n - 1) + 1) as En by (rewrite <- S_INR; f_equal; lia).
      assert (IZR m * eta <= INR n * eta) as Me by (apply Rmult_le_compat_r; lra).
      assert (0 <= IZR m * eta) as Mp by (apply Rmult_le_pos; lra).
      rewrite <- Em in *. split.
      + replace (IZR m * Rabs (rnd q - h)) with (Rabs (IZR m * (rnd q - q) + (rnd E - E) + (E - IZR m * h))).
        * assert (Rabs (IZR m * (rnd q - q)) <= u * Rabs (rnd E) + IZR m * (/ 2 * eta)) as Rm'
            by (rewrite Rabs_mult, (Rabs_pos_eq (IZR m)) by lra; exact Rm).
          eapply Rle_trans; [apply Rabs_triang|].
          pose proof (Rabs_triang (IZR m * (rnd q - q)) (rnd E - E)). lra.
        * rewrite <- (Rabs_pos_eq (IZR m)) at 3 by lra. rewrite <- Rabs_mult. f_equal. rewrite <- Eq. ring.
      + assert (IZR m * Rabs (rnd q) <= IZR m * Rabs (rnd q - q) + Rabs (rnd E)) as T.
        { rewrite <- Eq, Rabs_mult, (Rabs_pos_eq (IZR m)) by lra. rewrite <- Rmult_plus_distr_l. apply Rmult_le_compat_l; [lra|].
          pose proof (Rabs_triang (rnd q - q) q) as T. replace (rnd q - q + q) with (rnd q) in T by ring. exact T. }
        assert (INR n * Rabs (rnd q) <= 2 * (IZR m * Rabs (rnd q))) as T2.
        { rewrite En. pose proof (Rabs_pos (rnd q)). assert (1 * Rabs (rnd q) <= IZR m * Rabs (rnd q)) by (apply Rmult_le_compat_r; lra). lra. }
        lra.
  Qed.
End Accuracy.

Lemma raw_index (o : bool) n j : (1 <= n)%nat -> (j < n)%nat ->
  let j' := if o then j else ((j + n / 2) mod n)%nat in
  (j' < n)%nat /\ (Z.of_nat j' - Z.of_nat n / 2 = steps o n j)%Z.
Proof.
  intros P L. unfold steps. destruct o; cbv zeta.
  - split; [exact L|]. rewrite Nat2Z.inj_div. reflexivity.
  - split; [apply Nat.mod_upper_bound; lia|]. destruct (Nat.ltb_spec (2 * j) n) as [H|H].
    + rewrite Nat.mod_small by lia. lia.
    + replace (j + n / 2)%nat with (j + n / 2 - n + 1 * n)%nat by lia. rewrite Nat.mod_add by lia.
      rewrite Nat.mod_small by lia. lia.
Qed.

Lemma small_size n : (Z.of_nat n <= 2 ^ 53)%Z -> INR n * eta <= u.
Proof.
  intros H. apply Rle_trans with (IZR (2 ^ 53) * eta).
  - apply Rmult_le_compat_r; [apply Rlt_le, smallest_pos|]. rewrite INR_IZR_INZ. apply IZR_le. exact H.
  - change (IZR (2 ^ 53)) with (bpow radix2 53). unfold smallest, unit_roundoff. rewrite <- bpow_plus. apply bpow_le. lia.
Qed.
Lemma small_size_u n : (Z.of_nat n <= 2 ^ 53)%Z -> u * (INR n * eta) <= eta.
Proof.
  intros H. apply Rle_trans with (u * (IZR (2 ^ 53) * eta)).
  - apply Rmult_le_compat_l; [apply Rlt_le, u_pos|]. apply Rmult_le_compat_r; [apply Rlt_le, smallest_pos|].
    rewrite INR_IZR_INZ. apply IZR_le. exact H.
  - change (IZR (2 ^ 53)) with (bpow radix2 53). unfold smallest, unit_roundoff. rewrite <- !bpow_plus. apply bpow_le. lia.
Qed.

Lemma axis_reproduced (o : bool) g i r c h d M : countable r -> spaced o r c h d M -> moderate M ->
  r_natural r = o -> (o = false -> (3 <= length r)%nat) ->
  shape BN g i = Z.of_nat (length r) -> spacing g i = r_step r -> middle g i = r_center r ->
  origin_at_center BN g i = r_natural r -> center_at_index BN g i = true ->
  forall j, (j < length r)%nat ->
    finite (coordinate g i j) /\ Rabs (val (coordinate g i j) - entry r j) <= tolerance r d M /\
    (steps o (length r) j = 0%Z -> val (coordinate g i j) = entry r j).
Proof.
  intros Cr Sp Mo No Lo Sh St Ce Oc Ca j Hj.
  destruct (center_picked o r c h d M Cr Sp No Lo) as [Fc Vc].
  destruct (step_accurate o r c h d M Cr Sp Mo No Lo) as (Fs & S1 & S2).
  pose proof (nc_lt o r Cr) as Nl. pose proof (nc_steps o r Cr) as Ns.
  set (n := length r) in *. set (nc := if o then (n / 2)%nat else 0%nat) in *.
  pose proof (M_pos o r c h d M Cr Sp) as M0. pose proof (d_pos o r c h d M Cr Sp) as D0.
  pose proof u_pos as U0. pose proof u_small as U1. pose proof smallest_pos as E0.
  pose proof (entry_abs o r c h d M Sp nc Nl) as Ac. pose proof (entry_dev o r c h d M Sp nc Nl) as Dc.
  pose proof (entry_dev o r c h d M Sp j Hj) as Dj. fold n in Dc, Dj. rewrite Ns in Dc.
  destruct Cr as [P Q]. fold n in P, Q.
  destruct (raw_index o n j P Hj) as [Hj' Ej']. set (j' := if o then j else ((j + n / 2) mod n)%nat) in *.
  assert (sized g i) as Sz by (unfold sized; rewrite Sh; lia).
  assert (coordinate g i j = raw_coordinate BN g i j') as Ec.
  { unfold j'. clear j' Hj' Ej'. destruct o.
    - apply coordinate_natural; [unfold natural_order; congruence|rewrite Sh; lia].
    - rewrite coordinate_fft; [|unfold fft_order; congruence|rewrite Sh; lia]. rewrite Sh, Nat2Z.id. reflexivity. }
  set (k := steps o n j) in *.
  assert (magnitude g i <= 6 * M + INR n * eta) as Mag.
  { unfold magnitude. rewrite Ce, St, Sh, Vc, <- INR_IZR_INZ. lra. }
  pose proof (small_size n Q) as Sm. pose proof (small_size_u n Q) as Smu.
  assert (Rabs (IZR k * val (spacing g i)) <= 5 * M + INR n * eta) as Ks.
  { rewrite <- Ej'. pose proof (index_magnitude g i j' Sz ltac:(rewrite Sh; lia)) as K. rewrite Sh, St, <- INR_IZR_INZ in K.
    rewrite St. lra. }
  assert (8 * M <= bpow radix2 1003) as M8.
  { replace 8 with (bpow radix2 3) by (cbn; lra). replace 1003%Z with (3 + 1000)%Z by lia. rewrite bpow_plus.
    apply Rmult_le_compat_l; [apply bpow_ge_0|exact Mo]. }
  assert (1 <= bpow radix2 1003) as P1 by (change 1 with (bpow radix2 0); apply bpow_le; lia).
  assert (2 * bpow radix2 1003 = bpow radix2 1004) as P2 by (change 2 with (bpow radix2 1); rewrite <- bpow_plus; reflexivity).
  assert (2 * bpow radix2 1004 = bpow radix2 1005) as P3 by (change 2 with (bpow radix2 1); rewrite <- bpow_plus; reflexivity).
  assert (Rabs (rnd (IZR k * val (spacing g i))) <= bpow radix2 1004) as B1 by (apply abs_pow; [lia|]; lra).
  assert (Rabs (base g i k) <= bpow radix2 1005) as B2.
  { unfold base. apply abs_pow; [lia|]. eapply Rle_trans; [apply Rabs_triang|]. rewrite Ce, Vc. lra. }
  assert (rounded g i k = base g i k) as Er by (unfold rounded, shifted; rewrite Ca; reflexivity).
  assert (finite (coordinate g i j)) as F.
  { rewrite Ec. apply raw_fin; auto; try (rewrite Sh; lia); try (rewrite St; exact Fs); try (rewrite Ce; exact Fc);
      rewrite Sh, Ej'; rewrite ?Er; (eapply Rle_lt_trans; [eassumption|apply bpow_lt; lia]). }
  split; [exact F|].
  assert (val (coordinate g i j) = rounded g i k) as V.
  { rewrite Ec in F |- *. rewrite raw_val by (auto; rewrite Sh; lia). rewrite Sh, Ej'. reflexivity. }
  split.
  - pose proof (rounded_error g i j' Sz ltac:(rewrite Sh; lia)) as Re. rewrite Sh, Ej' in Re. rewrite V.
    assert (position g i j' = entry r nc + IZR k * val (r_step r)) as Ep.
    { unfold position. rewrite Ca, Ce, St, Vc, Sh, INR_IZR_INZ, <- minus_IZR, Ej'. reflexivity. }
    rewrite Ep in Re. unfold tolerance. fold n.
    assert (u * magnitude g i <= 6 * (u * M) + u * (INR n * eta)) as Um.
    { replace (6 * (u * M) + u * (INR n * eta)) with (u * (6 * M + INR n * eta)) by ring. apply Rmult_le_compat_l; lra. }
    assert (Rabs (IZR k) * Rabs (val (r_step r) - h) <= 2 * d + 5 * u * M + INR n * eta) as Kh.
    { eapply Rle_trans; [|exact S1]. apply Rmult_le_compat_r; [apply Rabs_pos|]. rewrite <- abs_IZR, INR_IZR_INZ. apply IZR_le.
      unfold k, steps. destruct o; [lia|]. specialize (Lo eq_refl). destruct (Nat.ltb_spec (2 * j) n); lia. }
    rewrite <- Rabs_mult in Kh.
    assert (0 <= INR n * eta) by (apply Rmult_le_pos; [apply pos_INR|lra]).
    assert (0 <= u * M) by (apply Rmult_le_pos; lra).
    replace (rounded g i k - entry r j) with
      ((rounded g i k - (entry r nc + IZR k * val (r_step r))) + (IZR k * (val (r_step r) - h)) +
       ((entry r nc - (c + 0 * h)) - (entry r j - (c + IZR k * h)))) by ring.
    apply Rabs_le_inv in Re. apply Rabs_le_inv in Kh. apply Rabs_le_inv in Dc. apply Rabs_le_inv in Dj.
    apply Rabs_le. lra.
  - intros K0. rewrite V, Er, K0. unfold base. rewrite Rmult_0_l, rnd_0, Rplus_0_l, Ce. rewrite rnd_fmt by apply fmt_val.
    rewrite Vc. f_equal. unfold nc. clear - K0 Hj Q P Lo. unfold k, steps in K0. destruct o.
    + lia.
    + destruct (Nat.ltb_spec (2 * j) n); lia.
Qed.

Lemma recognised o r c h d M : recognisable o r c h d M -> moderate M ->
  countable r /\ spaced o r c h d M /\ r_natural r = o /\ (o = false -> (3 <= length r)%nat).
Proof.
  intros H Mo. destruct o.
  - destruct H as (Cr & Sp & H). split; [exact Cr|]. split; [exact Sp|]. split; [|discriminate].
    destruct H as [H|H]; [eapply natural_monotone|eapply natural_spread]; eassumption.
  - destruct H as (Cr & L & Sp & H). split; [exact Cr|]. split; [exact Sp|]. split; [|intros _; exact L].
    eapply fft_recognised; eassumption.
Qed.

Lemma ranges_reproduced_lemma (t : dt) (ranges : list (list BN)) (natural : nat -> bool) (c h d M : nat -> R) :
  (1 <= length ranges)%nat ->
  (forall i, (i < length ranges)%nat -> moderate (M i) /\ recognisable (natural i) (nth i ranges []) (c i) (h i) (d i) (M i)) ->
  exists g, from_ranges BN t ranges = Ok g /\ ndim BN g = length ranges /\
    forall i, (i < length ranges)%nat ->
      let r := nth i ranges [] in
      shape BN g i = Z.of_nat (length r) /\ origin_at_center BN g i = natural i /\
      forall j, (j < length r)%nat ->
        finite (coordinate g i j) /\ Rabs (val (coordinate g i j) - entry r j) <= tolerance r (d i) (M i) /\
        (steps (natural i) (length r) j = 0%Z -> val (coordinate g i j) = entry r j).
Proof.
  intros P H.
  destruct (from_ranges_axes t ranges P) as (g & E & N & G).
  { intros i Hi. destruct (H i Hi) as [Mo R]. apply (recognised _ _ _ _ _ _ R Mo). }
  exists g. split; [exact E|]. split; [exact N|]. intros i Hi r. destruct (G i Hi) as (G1 & G2 & G3 & G4 & G5). fold r in G1, G2, G3, G4.
  destruct (H i Hi) as [Mo R]. destruct (recognised _ _ _ _ _ _ R Mo) as (Cr & Sp & No & Lo). fold r in Cr, Sp, No, Lo.
  split; [exact G1|]. split; [congruence|]. eapply axis_reproduced; eassumption.
Qed.
