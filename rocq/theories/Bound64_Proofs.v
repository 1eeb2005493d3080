(** Absorbing boundaries in double precision. *)
From Coq Require Import ZArith Reals Lia Lra Psatz List Bool ZifyBool ZifyNat.
From Flocq Require Import Core.Core IEEE754.BinarySingleNaN.
From Verif Require Import Base Num Grid_Model Grid_Proofs Bound_Model Bound_Proofs Float_Model Float_Spec Float_Basics Float_Proofs Bound64_Spec.
From Verif Require Bound_Spec.
Local Open Scope R_scope.
Ltac Zify.zify_post_hook ::= Z.div_mod_to_equations.

(** ** Multiples of a power of two *)
Definition mult (k : Z) (x : R) : Prop := exists z : Z, x = IZR z * bpow radix2 k.
Lemma mult_plus k x y : mult k x -> mult k y -> mult k (x + y).
Proof. intros (a & ->) (c & ->). exists (a + c)%Z. rewrite plus_IZR. ring. Qed.
Lemma mult_opp k x : mult k x -> mult k (- x).
Proof. intros (a & ->). exists (- a)%Z. rewrite opp_IZR. ring. Qed.
Lemma mult_least k x : mult k x -> 0 < x -> bpow radix2 k <= x.
Proof.
  intros (a & ->) H. pose proof (bpow_gt_0 radix2 k) as P. assert (0 < IZR a) as Ha by nra. apply lt_IZR in Ha.
  assert (1 <= IZR a) by (apply IZR_le; lia). nra.
Qed.
Lemma fmt_mult k x : fmt x -> bpow radix2 (k + 52) <= Rabs x -> (-1074 <= k)%Z -> mult k x.
Proof.
  intros F H Hk. unfold fmt, generic_format in F. set (e := cexp radix2 (FLT_exp (-1074) 53) x) in *.
  assert (k <= e)%Z as He.
  { unfold e, cexp, FLT_exp. assert (k + 52 < mag radix2 x)%Z; [|lia]. apply mag_gt_bpow. exact H. }
  rewrite F. unfold F2R. cbn [Fnum Fexp]. exists (Ztrunc (scaled_mantissa radix2 (FLT_exp (-1074) 53) x) * 2 ^ (e - k))%Z.
  rewrite mult_IZR. change (2 ^ (e - k))%Z with (radix2 ^ (e - k))%Z. rewrite IZR_Zpower by lia. rewrite Rmult_assoc, <- bpow_plus. f_equal. f_equal. lia.
Qed.
Lemma mult_fmt k z : (-1074 <= k)%Z -> (Z.abs z <= 2 ^ 53)%Z -> fmt (IZR z * bpow radix2 k).
Proof.
  intros Hk Hz. destruct (Z.eq_dec (Z.abs z) (2 ^ 53)) as [E|E].
  - assert (exists s : Z, (s = 1 \/ s = -1)%Z /\ z = (s * 2 ^ 53)%Z) as (s & Hs & ->) by (set (p := (2 ^ 53)%Z) in *; clearbody p; destruct (Z_le_dec 0 z) as [Q|Q]; [exists 1%Z|exists (-1)%Z]; (split; [auto|]); clear Hz; [rewrite Z.abs_eq in E by exact Q|rewrite Z.abs_neq in E by lia]; lia).
    replace (IZR (s * 2 ^ 53) * bpow radix2 k) with (F2R (Float radix2 s (53 + k))).
    + apply generic_format_FLT. exists (Float radix2 s (53 + k)); [reflexivity|cbn; lia|cbn [Fexp]; lia].
    + unfold F2R. cbn [Fnum Fexp]. rewrite mult_IZR, bpow_plus. change (2 ^ 53)%Z with (radix2 ^ 53)%Z. rewrite IZR_Zpower by lia. ring.
  - replace (IZR z * bpow radix2 k) with (F2R (Float radix2 z k)) by reflexivity. apply generic_format_FLT. exists (Float radix2 z k); [reflexivity|cbn [Fnum]; change (radix2 ^ 53)%Z with (2 ^ 53)%Z; lia|exact Hk].
Qed.
Lemma rnd_mult k x : (-1074 <= k)%Z -> mult k x -> mult k (rnd x).
Proof.
  intros Hk M. pose proof M as (z & E). destruct (Z_le_dec (Z.abs z) (2 ^ 53)) as [L|L].
  - rewrite rnd_fmt; [exact M|]. rewrite E. apply mult_fmt; assumption.
  - apply fmt_mult; [apply fmt_rnd| |exact Hk]. pose proof (bpow_gt_0 radix2 k) as P.
    assert (Q : forall w, IZR (2 ^ 53) * bpow radix2 k <= w -> bpow radix2 (k + 52) <= rnd w).
    { intros w Hw. apply Rle_trans with (rnd (IZR (2 ^ 53) * bpow radix2 k)); [|apply rnd_le, Hw]. rewrite rnd_fmt by (apply mult_fmt; [exact Hk|lia]).
      rewrite Z.add_comm, bpow_plus. change (2 ^ 53)%Z with (radix2 ^ 53)%Z. rewrite IZR_Zpower by lia. apply Rmult_le_compat_r; [lra|]. apply bpow_le. lia. }
    destruct (Z_le_dec 0 z) as [S|S].
    + rewrite Rabs_pos_eq.
      * apply Q. rewrite E. apply Rmult_le_compat_r; [lra|]. apply IZR_le. lia.
      * apply Rle_trans with (bpow radix2 (k + 52)); [apply bpow_ge_0|]. apply Q. rewrite E. apply Rmult_le_compat_r; [lra|]. apply IZR_le. lia.
    + assert (bpow radix2 (k + 52) <= rnd (- x)) as H. { apply Q. rewrite E. replace (- (IZR z * bpow radix2 k)) with (IZR (- z) * bpow radix2 k) by (rewrite opp_IZR; ring). apply Rmult_le_compat_r; [lra|]. apply IZR_le. lia. }
      rewrite rnd_opp in H. rewrite <- Rabs_Ropp. apply Rle_trans with (1 := H). apply Rle_abs.
Qed.
Lemma moderate_mult x : moderate x -> mult (-352) (val x).
Proof.
  intros (F & [H|[H _]]); [exists 0%Z; rewrite H; ring|]. apply fmt_mult; [apply fmt_val|exact H|lia].
Qed.
Lemma moderate_bound x : moderate x -> Rabs (val x) <= bpow radix2 300.
Proof. intros (F & [->|[_ H]]); [rewrite Rabs_R0; apply bpow_ge_0|exact H]. Qed.

(** ** Small facts about doubles *)
Lemma ltb_val x y : finite x -> finite y -> nltb (N := BN) x y = true <-> val x < val y.
Proof.
  intros Fx Fy. unfold nltb. rewrite andb_true_iff, negb_true_iff, leb_val, eqb_val_false by assumption. split; [intros [[H|H] N]; [exact H|contradiction]|intros H; split; lra].
Qed.
Lemma rnd_sign_pos x y : fmt x -> fmt y -> (0 < rnd (x - y) <-> 0 < x - y).
Proof.
  intros Fx Fy. split; intros H.
  - destruct (Rlt_le_dec 0 (x - y)) as [L|L]; [exact L|]. apply rnd_le in L. rewrite rnd_0 in L. lra.
  - assert (0 <= rnd (x - y)) as [P|P]; [rewrite <- rnd_0; apply rnd_le; lra|exact P|]. exfalso.
    pose proof (rnd_error_add x (- y) Fx ltac:(apply generic_format_opp; exact Fy)) as E. replace (x + - y) with (x - y) in E by ring. rewrite <- P in E.
    pose proof u_small. rewrite Rminus_0_l, Rabs_Ropp, Rabs_pos_eq in E by lra. nra.
Qed.
Lemma one_fin : finite (nofZ BN 1).
Proof. apply ofZ_fin. lia. Qed.
Lemma one_val : val (nofZ BN 1) = 1.
Proof. apply ofZ_eq. lia. Qed.
Lemma zero_fin : finite (nofZ BN 0).
Proof. apply ofZ_fin. lia. Qed.
Lemma zero_val : val (nofZ BN 0) = 0.
Proof. apply ofZ_eq. lia. Qed.
Lemma below_fin x : finite x -> Rabs (rnd (val x)) < bpow radix2 1024.
Proof. intros F. rewrite rnd_fmt by apply fmt_val. apply val_bound. Qed.
Lemma mul_one x : finite x -> finite (nmul BN x (nofZ BN 1)) /\ val (nmul BN x (nofZ BN 1)) = val x.
Proof.
  intros F. assert (finite (nmul BN x (nofZ BN 1))) as G by (apply mul_fin; [exact F|apply one_fin|rewrite one_val, Rmult_1_r; apply below_fin, F]).
  split; [exact G|]. destruct (mul_val _ _ G) as (_ & _ & ->). rewrite one_val, Rmult_1_r. apply rnd_fmt, fmt_val.
Qed.
Lemma one_mul x : finite x -> finite (nmul BN (nofZ BN 1) x) /\ val (nmul BN (nofZ BN 1) x) = val x.
Proof.
  intros F. assert (finite (nmul BN (nofZ BN 1) x)) as G by (apply mul_fin; [apply one_fin|exact F|rewrite one_val, Rmult_1_l; apply below_fin, F]).
  split; [exact G|]. destruct (mul_val _ _ G) as (_ & _ & ->). rewrite one_val, Rmult_1_l. apply rnd_fmt, fmt_val.
Qed.
Lemma zero_mul x y : finite x -> finite y -> val x = 0 \/ val y = 0 -> finite (nmul BN x y) /\ val (nmul BN x y) = 0.
Proof.
  intros Fx Fy Z. assert (val x * val y = 0) as E by (destruct Z as [-> | ->]; ring).
  assert (finite (nmul BN x y)) as G by (apply mul_fin; [exact Fx|exact Fy|rewrite E, rnd_0, Rabs_R0; apply bpow_gt_0]).
  split; [exact G|]. destruct (mul_val _ _ G) as (_ & _ & ->). rewrite E. apply rnd_0.
Qed.
Lemma zero_div x y : finite x -> val x = 0 -> val y <> 0 -> finite (ndiv BN x y) /\ val (ndiv BN x y) = 0.
Proof.
  intros Fx Z N. assert (val x / val y = 0) as E by (rewrite Z; unfold Rdiv; ring).
  assert (finite (ndiv BN x y)) as G by (apply div_fin; [exact Fx|exact N|rewrite E, rnd_0, Rabs_R0; apply bpow_gt_0]).
  split; [exact G|]. destruct (div_val _ _ N G) as (_ & ->). rewrite E. apply rnd_0.
Qed.
Lemma sign_one x : finite x -> 0 < val x -> nsign (N := BN) x = nofZ BN 1.
Proof.
  intros F P. unfold nsign. destruct (neqb BN x (nofZ BN 0)) eqn:E; [apply eqb_val in E; [rewrite zero_val in E; lra|exact F|apply zero_fin]|].
  destruct (nleb BN (nofZ BN 0) x) eqn:L; [reflexivity|]. exfalso. assert (nleb BN (nofZ BN 0) x = true); [|congruence]. apply leb_val; [apply zero_fin|exact F|rewrite zero_val; lra].
Qed.
Lemma rnd_pow_le k x : (-1074 <= k)%Z -> bpow radix2 k <= x -> bpow radix2 k <= rnd x.
Proof.
  intros Hk H. rewrite <- (rnd_fmt (bpow radix2 k)); [apply rnd_le, H|]. replace (bpow radix2 k) with (IZR 1 * bpow radix2 k) by ring. apply mult_fmt; [exact Hk|lia].
Qed.
Lemma rnd_le_pow k x : (-1074 <= k)%Z -> x <= bpow radix2 k -> rnd x <= bpow radix2 k.
Proof.
  intros Hk H. rewrite <- (rnd_fmt (bpow radix2 k)); [apply rnd_le, H|]. replace (bpow radix2 k) with (IZR 1 * bpow radix2 k) by ring. apply mult_fmt; [exact Hk|lia].
Qed.
Lemma rnd_abs_pow k x : (-1074 <= k)%Z -> Rabs x <= bpow radix2 k -> Rabs (rnd x) <= bpow radix2 k.
Proof.
  intros Hk H. apply Rabs_le. assert (- bpow radix2 k <= x <= bpow radix2 k) as [L U] by (split; [|]; revert H; unfold Rabs; destruct (Rcase_abs x); lra).
  split; [|apply rnd_le_pow; assumption]. pose proof (rnd_le_pow k (- x) Hk ltac:(lra)) as Q. rewrite rnd_opp in Q. lra.
Qed.
Lemma pow_fin k x : (k < 1024)%Z -> Rabs x <= bpow radix2 k -> Rabs x < bpow radix2 1024.
Proof. intros Hk H. apply Rle_lt_trans with (1 := H). apply bpow_lt. exact Hk. Qed.
Lemma max_val x y : finite x -> finite y -> finite (nmax (N := BN) x y) /\ val (nmax (N := BN) x y) = Rmax (val x) (val y).
Proof.
  intros Fx Fy. unfold nmax. destruct (nleb BN x y) eqn:E.
  - apply leb_val in E; [|assumption|assumption]. split; [exact Fy|]. rewrite Rmax_right by exact E. reflexivity.
  - split; [exact Fx|]. rewrite Rmax_left; [reflexivity|]. destruct (Rle_dec (val x) (val y)) as [H|H]; [|lra]. apply leb_val in H; [congruence|assumption|assumption].
Qed.

(** ** One axis and one side *)
Section Axis.
  Variable b : bound BN.
  Notation g := (b_grid BN b).
  Notation thick := (thickness BN b).
  Variable kmax : nat -> nat -> BN.
  Hypothesis U : upright64 g.
  Hypothesis HK : forall a s x, (a < ndim BN g)%nat -> (s < 2)%nat -> kappa_function BN b a s x = nmul BN (kmax a s) x.
  Hypothesis Ht : forall a s, (a < ndim BN g)%nat -> (s < 2)%nat -> moderate (thick a s) /\ 0 <= val (thick a s).
  Hypothesis Hk : forall a s, (a < ndim BN g)%nat -> (s < 2)%nat -> moderate (kmax a s) /\ 0 <= val (kmax a s).

  Lemma range_length a : length (axis_range BN g a) = Z.to_nat (shape BN g a).
  Proof. unfold axis_range. destruct (origin_at_center BN g a); [|rewrite ifftshift_length]; rewrite map_length, seq_length; reflexivity. Qed.
  Definition npts (a : nat) : nat := Z.to_nat (shape BN g a).
  Lemma npts_pos a : (a < ndim BN g)%nat -> (1 <= npts a)%nat.
  Proof. intros Ha. destruct U as ((_ & _ & _ & Hs) & _). specialize (Hs a Ha). unfold sized in Hs. unfold npts. lia. Qed.
  Lemma coord_ok a j : (a < ndim BN g)%nat -> (j < npts a)%nat -> moderate (coordinate g a j).
  Proof. intros Ha Hj. destruct U as (_ & H). destruct (H a Ha) as (_ & _ & _ & Hm). apply Hm. unfold npts in Hj. lia. Qed.
  Lemma coord_nth a j (d : BN) : (a < ndim BN g)%nat -> (j < npts a)%nat -> nth j (axis_range BN g a) d = coordinate g a j.
  Proof. intros Ha Hj. unfold coordinate. apply nth_indep. rewrite range_length. exact Hj. Qed.
  Lemma coord_le a i j : (a < ndim BN g)%nat -> (i <= j)%nat -> (j < npts a)%nat -> val (coordinate g a i) <= val (coordinate g a j).
  Proof.
    intros Ha Hij Hj. destruct U as ((_ & _ & _ & Hs) & H). destruct (H a Ha) as (No & Fs & Ps & Hm). refine (proj1 (points_ordered g a i j (Hs a Ha) No Hij _ _ _) _).
    - unfold npts in Hj. lia.
    - apply coord_ok; [exact Ha|lia].
    - apply coord_ok; assumption.
    - lra.
  Qed.

  (** The inner edge of the boundary as the code computes it, and the depth. *)
  Definition inner (a s : nat) : R :=
    match s with O => rnd (val (edge64 g a 0) + val (thick a 0%nat)) | _ => rnd (val (edge64 g a 1) - val (thick a 1%nat)) end.
  Definition deep (a s j : nat) : R := match s with O => inner a 0 - val (coordinate g a j) | _ => val (coordinate g a j) - inner a 1 end.

  Lemma edge_ok a s : (a < ndim BN g)%nat -> moderate (edge64 g a s).
  Proof. intros Ha. pose proof (npts_pos a Ha). unfold edge64. apply coord_ok; [exact Ha|]. unfold npts in *. destruct s; lia. Qed.
  Lemma inner_double a : (a < ndim BN g)%nat ->
    (finite (nadd BN (edge64 g a 0) (thick a 0%nat)) /\ val (nadd BN (edge64 g a 0) (thick a 0%nat)) = inner a 0) /\
    (finite (nsub BN (edge64 g a 1) (thick a 1%nat)) /\ val (nsub BN (edge64 g a 1) (thick a 1%nat)) = inner a 1) /\
    Rabs (inner a 0) <= bpow radix2 301 /\ Rabs (inner a 1) <= bpow radix2 301.
  Proof.
    intros Ha. pose proof (edge_ok a 0 Ha) as E0. pose proof (edge_ok a 1 Ha) as E1. destruct (Ht a 0 Ha) as [T0 _]; [lia|]. destruct (Ht a 1 Ha) as [T1 _]; [lia|].
    assert (D : bpow radix2 301 = bpow radix2 300 + bpow radix2 300) by (change 301%Z with (1 + 300)%Z; rewrite bpow_plus; change (bpow radix2 1) with 2; ring).
    assert (B0 : Rabs (rnd (val (edge64 g a 0) + val (thick a 0%nat))) <= bpow radix2 301).
    { apply rnd_abs_pow; [lia|]. eapply Rle_trans; [apply Rabs_triang|]. rewrite D. apply Rplus_le_compat; apply moderate_bound; assumption. }
    assert (B1 : Rabs (rnd (val (edge64 g a 1) - val (thick a 1%nat))) <= bpow radix2 301).
    { apply rnd_abs_pow; [lia|]. eapply Rle_trans; [apply Rabs_triang|]. rewrite Rabs_Ropp, D. apply Rplus_le_compat; apply moderate_bound; assumption. }
    assert (finite (nadd BN (edge64 g a 0) (thick a 0%nat))) as F0 by (apply add_fin; [apply E0|apply T0|apply (pow_fin 301); [lia|exact B0]]).
    assert (finite (nsub BN (edge64 g a 1) (thick a 1%nat))) as F1 by (apply sub_fin; [apply E1|apply T1|apply (pow_fin 301); [lia|exact B1]]).
    split; [split; [exact F0|apply (add_val _ _ F0)]|]. split; [split; [exact F1|apply (sub_val _ _ F1)]|]. split; assumption.
  Qed.
  Lemma inner_fmt a s : fmt (inner a s).
  Proof. destruct s; apply fmt_rnd. Qed.
  Lemma inner_mult a s : (a < ndim BN g)%nat -> (s < 2)%nat -> mult (-352) (inner a s).
  Proof.
    intros Ha Hs. destruct (Ht a s Ha Hs) as [T _]. destruct s as [|[|s]]; [| |lia]; cbn [inner]; apply rnd_mult; try lia; [|apply mult_plus with (y := - _); [|apply mult_opp]].
    - apply mult_plus; apply moderate_mult; [apply edge_ok, Ha|exact T].
    - apply moderate_mult, edge_ok, Ha.
    - apply moderate_mult, T.
  Qed.
  Lemma sign_ok a : (a < ndim BN g)%nat -> nsign (N := BN) (at_ BN (step BN g) a) = nofZ BN 1.
  Proof. intros Ha. destruct U as (_ & H). destruct (H a Ha) as (_ & Fs & Ps & _). apply sign_one; assumption. Qed.

  (** The thickness after multiplication with the sign of the step. *)
  Notation tt a s := (nmul BN (thick a s) (nofZ BN 1)).
  Lemma tt_ok a s : (a < ndim BN g)%nat -> (s < 2)%nat -> finite (tt a s) /\ val (tt a s) = val (thick a s).
  Proof. intros Ha Hs. apply mul_one. apply Ht; assumption. Qed.
  Lemma depth_val a s j : (a < ndim BN g)%nat -> (s < 2)%nat -> (j < npts a)%nat ->
    finite (depth BN b a s (axis_range BN g a) j) /\ val (depth BN b a s (axis_range BN g a) j) = rnd (deep a s j).
  Proof.
    intros Ha Hs Hj. unfold depth. rewrite sign_ok by exact Ha. pose proof (npts_pos a Ha) as Hn. rewrite range_length. fold (npts a).
    destruct (tt_ok a s Ha Hs) as [Ftt Vtt]. destruct (inner_double a Ha) as ((F0 & V0) & (F1 & V1) & B0 & B1).
    assert (D : bpow radix2 302 = bpow radix2 301 + bpow radix2 301) by (change 302%Z with (1 + 301)%Z; rewrite bpow_plus; change (bpow radix2 1) with 2; ring).
    pose proof (moderate_bound _ (coord_ok a j Ha Hj)) as Bc. assert (bpow radix2 300 <= bpow radix2 301) as P3 by (apply bpow_le; lia).
    destruct s as [|[|s]]; [| |lia].
    - rewrite !coord_nth by (auto; lia). change (coordinate g a 0) with (edge64 g a 0).
      assert (FS : finite (nadd BN (edge64 g a 0) (tt a 0%nat)) /\ val (nadd BN (edge64 g a 0) (tt a 0%nat)) = inner a 0).
      { destruct (add_val _ _ F0) as (Fe & _ & _). assert (finite (nadd BN (edge64 g a 0) (tt a 0%nat))) as G; [|split; [exact G|destruct (add_val _ _ G) as (_ & _ & ->); rewrite Vtt; reflexivity]].
        apply add_fin; [exact Fe|exact Ftt|]. rewrite Vtt. apply (pow_fin 301); [lia|exact B0]. }
      destruct FS as [FS VS].
      assert (FD : finite (nsub BN (nadd BN (edge64 g a 0) (tt a 0%nat)) (coordinate g a j))).
      { apply sub_fin; [exact FS|apply coord_ok; assumption|]. rewrite VS. apply (pow_fin 302); [lia|]. apply rnd_abs_pow; [lia|]. eapply Rle_trans; [apply Rabs_triang|]. rewrite Rabs_Ropp, D. lra. }
      destruct (mul_one _ FD) as [G V]. split; [exact G|]. rewrite V. destruct (sub_val _ _ FD) as (_ & _ & ->). rewrite VS. reflexivity.
    - rewrite !coord_nth by (auto; lia). change (coordinate g a (npts a - 1)) with (edge64 g a 1).
      assert (FS : finite (nsub BN (edge64 g a 1) (tt a 1%nat)) /\ val (nsub BN (edge64 g a 1) (tt a 1%nat)) = inner a 1).
      { destruct (sub_val _ _ F1) as (Fe & _ & _). assert (finite (nsub BN (edge64 g a 1) (tt a 1%nat))) as G; [|split; [exact G|destruct (sub_val _ _ G) as (_ & _ & ->); rewrite Vtt; reflexivity]].
        apply sub_fin; [exact Fe|exact Ftt|]. rewrite Vtt. apply (pow_fin 301); [lia|exact B1]. }
      destruct FS as [FS VS].
      assert (FD : finite (nsub BN (coordinate g a j) (nsub BN (edge64 g a 1) (tt a 1%nat)))).
      { apply sub_fin; [apply coord_ok; assumption|exact FS|]. rewrite VS. apply (pow_fin 302); [lia|]. apply rnd_abs_pow; [lia|]. eapply Rle_trans; [apply Rabs_triang|]. rewrite Rabs_Ropp, D. lra. }
      destruct (mul_one _ FD) as [G V]. split; [exact G|]. rewrite V. destruct (sub_val _ _ FD) as (_ & _ & ->). rewrite VS. reflexivity.
  Qed.
  Lemma deep_sign a s j : (a < ndim BN g)%nat -> (j < npts a)%nat -> 0 < rnd (deep a s j) <-> 0 < deep a s j.
  Proof.
    intros Ha Hj. unfold deep. destruct s; apply rnd_sign_pos; try apply inner_fmt; apply fmt_val.
  Qed.
  Lemma deep_le a s j : (a < ndim BN g)%nat -> (s < 2)%nat -> (j < npts a)%nat -> deep a s j <= Rabs (inner a s - val (edge64 g a s)).
  Proof.
    intros Ha Hs Hj. pose proof (npts_pos a Ha). destruct s as [|[|s]]; [| |lia]; unfold deep.
    - apply Rle_trans with (inner a 0 - val (edge64 g a 0)); [|apply Rle_abs]. unfold edge64. pose proof (coord_le a 0 j Ha ltac:(lia) Hj). lra.
    - apply Rle_trans with (val (edge64 g a 1) - inner a 1); [|rewrite Rabs_minus_sym; apply Rle_abs]. unfold edge64. fold (npts a). pose proof (coord_le a j (npts a - 1) Ha ltac:(lia) ltac:(lia)). lra.
  Qed.
  (** The computed edge is at the right place up to rounding. *)
  Lemma inner_near a s : (a < ndim BN g)%nat -> (s < 2)%nat ->
    Rabs (inner a s - val (edge64 g a s)) <= val (thick a s) + unit_roundoff * (Rabs (val (edge64 g a s)) + val (thick a s)).
  Proof.
    intros Ha Hs. destruct (Ht a s Ha Hs) as [_ T]. pose proof u_pos. destruct s as [|[|s]]; [| |lia]; cbn [inner].
    - pose proof (rnd_error_add (val (edge64 g a 0)) (val (thick a 0%nat)) (fmt_val _) (fmt_val _)) as E.
      replace (rnd (val (edge64 g a 0) + val (thick a 0%nat)) - val (edge64 g a 0)) with ((rnd (val (edge64 g a 0) + val (thick a 0%nat)) - (val (edge64 g a 0) + val (thick a 0%nat))) + val (thick a 0%nat)) by ring.
      eapply Rle_trans; [apply Rabs_triang|]. rewrite (Rabs_pos_eq (val (thick a 0%nat))) by exact T. pose proof (Rabs_triang (val (edge64 g a 0)) (val (thick a 0%nat))) as Q. rewrite (Rabs_pos_eq (val (thick a 0%nat))) in Q by exact T. nra.
    - pose proof (rnd_error_add (val (edge64 g a 1)) (- val (thick a 1%nat)) (fmt_val _) ltac:(apply generic_format_opp; apply fmt_val)) as E.
      replace (rnd (val (edge64 g a 1) - val (thick a 1%nat)) - val (edge64 g a 1)) with ((rnd (val (edge64 g a 1) + - val (thick a 1%nat)) - (val (edge64 g a 1) + - val (thick a 1%nat))) + - val (thick a 1%nat)) by (unfold Rminus; ring).
      eapply Rle_trans; [apply Rabs_triang|]. rewrite (Rabs_Ropp (val (thick a 1%nat))), (Rabs_pos_eq (val (thick a 1%nat))) by exact T. pose proof (Rabs_triang (val (edge64 g a 1)) (- val (thick a 1%nat))) as Q.
      rewrite (Rabs_Ropp (val (thick a 1%nat))), (Rabs_pos_eq (val (thick a 1%nat))) in Q by exact T. nra.
  Qed.
  Lemma no_thickness a s j : (a < ndim BN g)%nat -> (s < 2)%nat -> (j < npts a)%nat -> val (thick a s) = 0 -> deep a s j <= 0.
  Proof.
    intros Ha Hs Hj T. eapply Rle_trans; [apply deep_le; assumption|]. destruct s as [|[|s]]; [| |lia]; cbn [inner]; rewrite T, ?Rplus_0_r, ?Rminus_0_r, rnd_fmt by apply fmt_val; rewrite Rminus_diag_eq by reflexivity; rewrite Rabs_R0; lra.
  Qed.

  Definition limit (a s : nat) : R := val (kmax a s) * (1 + bpow radix2 (-50) * (1 + Rabs (val (edge64 g a s)) / val (thick a s))).
  Definition cval (c : option (nat -> BN)) (j : nat) : BN := match c with None => nofZ BN 0 | Some f => f j end.
  Lemma steep t e k d : 0 < t -> 0 <= e -> bpow radix2 (-300) <= k -> 0 < d -> d <= t + unit_roundoff * (e + t) -> rnd d <= (1 + unit_roundoff) * d ->
    rnd (k * rnd (rnd d / t)) <= k * (1 + bpow radix2 (-50) * (1 + e / t)).
  Proof.
    intros Pt Pe Pk Pd Hd Hr. set (u := unit_roundoff) in *. set (r := e / t). assert (Pr : 0 <= r) by (apply Rmult_le_pos; [exact Pe|left; apply Rinv_0_lt_compat; exact Pt]). pose proof u_pos as Pu. fold u in Pu.
    assert (Su : u <= / 1024) by apply u_small. assert (Eu : bpow radix2 (-50) = 8 * u) by (unfold u, unit_roundoff; change (-50)%Z with (3 + -53)%Z; rewrite bpow_plus; change (bpow radix2 3) with 8; reflexivity).
    assert (N1 : bpow radix2 (-1022) <= 1) by (change 1 with (bpow radix2 0); apply bpow_le; lia).
    set (B1 := 1 + u * (r + 1)). assert (H1 : d <= t * B1) by (unfold B1; replace (t * (1 + u * (r + 1))) with (t + u * (t * r + t)) by ring; unfold r; replace (t * (e / t)) with e by (field; lra); exact Hd).
    assert (P1 : 1 <= B1) by (unfold B1; nra).
    assert (Up : forall x, bpow radix2 (-1022) <= x -> rnd x <= (1 + u) * x).
    { intros x Hx. pose proof (bpow_gt_0 radix2 (-1022)). assert (normal x) as Nx by (unfold normal; rewrite Rabs_pos_eq by lra; exact Hx). pose proof (rnd_error_normal x Nx) as E. fold u in E. rewrite (Rabs_pos_eq x) in E by lra. pose proof (Rle_abs (rnd x - x)). lra. }
    assert (H2 : rnd (rnd d / t) <= (1 + u) * ((1 + u) * B1)).
    { apply Rle_trans with (rnd ((1 + u) * B1)); [apply rnd_le|apply Up; nra]. apply Rmult_le_reg_r with t; [exact Pt|]. unfold Rdiv. rewrite Rmult_assoc, Rinv_l by lra. nra. }
    assert (Pkk : 0 < k) by (pose proof (bpow_gt_0 radix2 (-300)); lra).
    assert (H3 : rnd (k * rnd (rnd d / t)) <= (1 + u) * (k * ((1 + u) * ((1 + u) * B1)))).
    { apply Rle_trans with (rnd (k * ((1 + u) * ((1 + u) * B1)))); [apply rnd_le, Rmult_le_compat_l; lra|]. apply Up. apply Rle_trans with (bpow radix2 (-300)); [apply bpow_le; lia|].
      assert (1 <= (1 + u) * ((1 + u) * B1)) by nra. nra. }
    eapply Rle_trans; [exact H3|]. rewrite Eu. replace ((1 + u) * (k * ((1 + u) * ((1 + u) * B1)))) with (k * ((1 + u) * (1 + u) * (1 + u) * B1)) by ring. apply Rmult_le_compat_l; [lra|].
    assert (C3 : (1 + u) * (1 + u) * (1 + u) <= 1 + 4 * u) by nra. apply Rle_trans with ((1 + 4 * u) * B1); [apply Rmult_le_compat_r; lra|]. unfold B1. nra.
  Qed.
  Lemma contribution64 a s : (a < ndim BN g)%nat -> (s < 2)%nat ->
    exists c, contribution BN b a s (axis_range BN g a) = Ok c /\ forall j, (j < npts a)%nat ->
      finite (cval c j) /\ 0 <= val (cval c j) /\ (deep a s j <= 0 -> val (cval c j) = 0) /\ (0 < deep a s j -> 0 < val (kmax a s) -> 0 < val (cval c j)) /\
      (0 < deep a s j -> 0 < val (thick a s) /\ val (cval c j) <= limit a s).
  Proof.
    intros Ha Hs. unfold contribution. rewrite range_length. fold (npts a). destruct (Ht a s Ha Hs) as [Tm Tp]. destruct (Hk a s Ha Hs) as [Km Kp].
    set (inb := fun j : nat => nltb (nofZ BN 0) (depth BN b a s (axis_range BN g a) j)).
    assert (I : forall j, (j < npts a)%nat -> inb j = true <-> 0 < deep a s j).
    { intros j Hj. unfold inb. destruct (depth_val a s j Ha Hs Hj) as [F V]. rewrite ltb_val by (exact F || apply zero_fin). rewrite zero_val, V. apply deep_sign; assumption. }
    assert (Tdeep : forall j, (j < npts a)%nat -> 0 < deep a s j -> 0 < val (thick a s)).
    { intros j Hj Hd. destruct Tp as [Tp|Tp]; [exact Tp|]. symmetry in Tp. pose proof (no_thickness a s j Ha Hs Hj Tp). lra. }
    destruct (existsb inb (seq 0 (npts a))) eqn:EX.
    - apply existsb_exists in EX as (j0 & Hj0 & Hin). apply in_seq in Hj0. apply I in Hin; [|lia]. pose proof (Tdeep j0 ltac:(lia) Hin) as Tpos.
      rewrite sign_ok by exact Ha. destruct (tt_ok a s Ha Hs) as [Ftt Vtt].
      destruct (neqb BN (nmul BN (thick a s) (nofZ BN 1)) (nofZ BN 0)) eqn:E0.
      { apply eqb_val in E0; [|exact Ftt|apply zero_fin]. rewrite Vtt, zero_val in E0. lra. }
      eexists. split; [reflexivity|]. intros j Hj. cbn [cval]. change (nltb (nofZ BN 0) (depth BN b a s (axis_range BN g a) j)) with (inb j).
      destruct (depth_val a s j Ha Hs Hj) as [F V]. rewrite HK by assumption.
      destruct (inb j) eqn:L; cbn [bnum]; unfold bnum.
      + apply I in L; [|exact Hj]. destruct (one_mul _ F) as [F1 V1].
        assert (Vt0 : val (nmul BN (thick a s) (nofZ BN 1)) <> 0) by (rewrite Vtt; lra).
        assert (Dle : deep a s j <= bpow radix2 302).
        { eapply Rle_trans; [apply deep_le; assumption|]. eapply Rle_trans; [apply Rabs_triang|]. rewrite Rabs_Ropp. destruct (inner_double a Ha) as (_ & _ & B0 & B1).
          assert (D : bpow radix2 302 = bpow radix2 301 + bpow radix2 301) by (change 302%Z with (1 + 301)%Z; rewrite bpow_plus; change (bpow radix2 1) with 2; ring). rewrite D.
          apply Rplus_le_compat; [destruct s as [|[|s]]; [exact B0|exact B1|lia]|]. eapply Rle_trans; [apply moderate_bound, edge_ok, Ha|apply bpow_le; lia]. }
        assert (Dge : bpow radix2 (-352) <= deep a s j).
        { apply mult_least; [|exact L]. unfold deep. destruct s as [|[|s]]; [| |lia]; apply mult_plus with (y := - _); try apply mult_opp; try (apply inner_mult; [exact Ha|lia]); apply moderate_mult, coord_ok; assumption. }
        set (d := rnd (deep a s j)) in *. assert (Dr : bpow radix2 (-352) <= d <= bpow radix2 302) by (split; [apply rnd_pow_le; [lia|exact Dge]|apply rnd_le_pow; [lia|exact Dle]]).
        pose proof (bpow_gt_0 radix2 (-352)) as P352. assert (T1 : bpow radix2 (-300) <= val (thick a s) <= bpow radix2 300).
        { destruct Tm as (_ & [Z|Z]); [lra|]. rewrite Rabs_pos_eq in Z by lra. exact Z. }
        assert (Q : bpow radix2 (-652) <= d / val (thick a s) <= bpow radix2 602).
        { split.
          - apply Rmult_le_reg_r with (val (thick a s)); [exact Tpos|]. unfold Rdiv. rewrite Rmult_assoc, Rinv_l, Rmult_1_r by lra. apply Rle_trans with (bpow radix2 (-652) * bpow radix2 300); [apply Rmult_le_compat_l; [apply bpow_ge_0|apply T1]|]. rewrite <- bpow_plus. apply Dr.
          - apply Rmult_le_reg_r with (val (thick a s)); [exact Tpos|]. unfold Rdiv. rewrite Rmult_assoc, Rinv_l, Rmult_1_r by lra. apply Rle_trans with (bpow radix2 602 * bpow radix2 (-300)); [rewrite <- bpow_plus; apply Dr|apply Rmult_le_compat_l; [apply bpow_ge_0|apply T1]]. }
        set (rel := rnd (d / val (thick a s))) in *. assert (R1 : bpow radix2 (-652) <= rel <= bpow radix2 602) by (split; [apply rnd_pow_le; [lia|apply Q]|apply rnd_le_pow; [lia|apply Q]]).
        pose proof (bpow_gt_0 radix2 (-652)) as P652.
        assert (FR : finite (ndiv BN (nmul BN (nofZ BN 1) (depth BN b a s (axis_range BN g a) j)) (nmul BN (thick a s) (nofZ BN 1)))).
        { apply div_fin; [exact F1|exact Vt0|]. rewrite V1, V, Vtt. apply (pow_fin 602); [lia|]. fold rel. rewrite Rabs_pos_eq by lra. apply R1. }
        destruct (div_val _ _ Vt0 FR) as (_ & VR). rewrite V1, V, Vtt in VR. fold rel in VR.
        pose proof (moderate_bound _ Km) as Kb. rewrite Rabs_pos_eq in Kb by exact Kp.
        set (X := ndiv BN (nmul BN (nofZ BN 1) (depth BN b a s (axis_range BN g a) j)) (nmul BN (thick a s) (nofZ BN 1))) in *.
        assert (KR : 0 <= val (kmax a s) * rel <= bpow radix2 902).
        { split; [apply Rmult_le_pos; lra|]. change 902%Z with (300 + 602)%Z. rewrite bpow_plus. apply Rmult_le_compat; lra. }
        assert (FK : finite (nmul BN (kmax a s) X)).
        { apply mul_fin; [apply Km|exact FR|]. rewrite VR. apply (pow_fin 902); [lia|]. apply rnd_abs_pow; [lia|]. rewrite Rabs_pos_eq; apply KR. }
        destruct (mul_val _ _ FK) as (_ & _ & VK). rewrite VR in VK. destruct (mul_one _ FK) as [FF VF]. rewrite VK in VF.
        assert (G0 : 0 <= val (nmul BN (nmul BN (kmax a s) X) (nofZ BN 1))) by (rewrite VF, <- rnd_0; apply rnd_le, KR).
        refine (conj FF (conj G0 (conj _ (conj _ _)))).
        * intros H. lra.
        * intros _ PK. rewrite VF. assert (K1 : bpow radix2 (-300) <= val (kmax a s)) by (destruct Km as (_ & [Z|Z]); [lra|]; rewrite Rabs_pos_eq in Z by lra; apply Z).
          apply Rlt_le_trans with (bpow radix2 (-952)); [apply bpow_gt_0|]. apply rnd_pow_le; [lia|]. change (-952)%Z with (-300 + -652)%Z. rewrite bpow_plus. apply Rmult_le_compat; try apply bpow_ge_0; lra.
        * intros _. split; [exact Tpos|]. rewrite VF. unfold limit. destruct Kp as [PK|PK].
          -- assert (K1 : bpow radix2 (-300) <= val (kmax a s)) by (destruct Km as (_ & [Z|Z]); [lra|]; rewrite Rabs_pos_eq in Z by lra; apply Z).
             unfold rel, d. apply steep; try assumption; [apply Rabs_pos|eapply Rle_trans; [apply deep_le; assumption|]; pose proof (inner_near a s Ha Hs); lra|].
             assert (Rabs (rnd (deep a s j) - deep a s j) <= unit_roundoff * Rabs (deep a s j)) as E.
             { unfold deep. destruct s as [|s]; apply rnd_error_add; try apply generic_format_opp; try apply inner_fmt; apply fmt_val. }
             rewrite (Rabs_pos_eq (deep a s j)) in E by lra. pose proof (Rle_abs (rnd (deep a s j) - deep a s j)). lra.
          -- rewrite <- PK, Rmult_0_l, rnd_0. lra.
      + assert (D0 : ~ 0 < deep a s j) by (intros Q; apply I in Q; [congruence|exact Hj]).
        destruct (zero_mul (nofZ BN 0) (depth BN b a s (axis_range BN g a) j) zero_fin F (or_introl zero_val)) as [F1 V1].
        destruct (zero_div _ (nmul BN (thick a s) (nofZ BN 1)) F1 V1 ltac:(rewrite Vtt; lra)) as [F2 V2].
        destruct (zero_mul (kmax a s) _ (proj1 Km) F2 (or_intror V2)) as [F3 V3]. destruct (zero_mul _ (nofZ BN 0) F3 zero_fin (or_intror zero_val)) as [F4 V4].
        refine (conj F4 (conj _ (conj _ (conj _ _)))); [rewrite V4; lra|intros _; exact V4|intros; contradiction|intros; contradiction].
    - eexists. split; [reflexivity|]. intros j Hj. cbn [cval]. assert (D0 : ~ 0 < deep a s j).
      { intros Q. apply I in Q; [|exact Hj]. assert (existsb inb (seq 0 (npts a)) = true); [|congruence]. apply existsb_exists. exists j. split; [apply in_seq; lia|exact Q]. }
      refine (conj zero_fin (conj _ (conj _ (conj _ _)))); [rewrite zero_val; lra|intros _; apply zero_val|intros; contradiction|intros; contradiction].
  Qed.

  (** Where the boundary ends. *)
  Definition distance (a s j : nat) : R := Rabs (val (coordinate g a j) - val (edge64 g a s)).
  Lemma distance_signed a s j : (a < ndim BN g)%nat -> (s < 2)%nat -> (j < npts a)%nat ->
    distance a s j = match s with O => val (coordinate g a j) - val (edge64 g a 0) | _ => val (edge64 g a 1) - val (coordinate g a j) end.
  Proof.
    intros Ha Hs Hj. unfold distance. pose proof (npts_pos a Ha). destruct s as [|[|s]]; [| |lia].
    - apply Rabs_pos_eq. unfold edge64. pose proof (coord_le a 0 j Ha ltac:(lia) Hj). lra.
    - rewrite Rabs_minus_sym. apply Rabs_pos_eq. unfold edge64. fold (npts a). pose proof (coord_le a j (npts a - 1) Ha ltac:(lia) ltac:(lia)). lra.
  Qed.
  Lemma deep_near a s j : (a < ndim BN g)%nat -> (s < 2)%nat -> (j < npts a)%nat ->
    Rabs (deep a s j - (val (thick a s) - distance a s j)) <= unit_roundoff * (Rabs (val (edge64 g a s)) + val (thick a s)).
  Proof.
    intros Ha Hs Hj. rewrite distance_signed by assumption. destruct (Ht a s Ha Hs) as [_ T]. pose proof u_pos. destruct s as [|[|s]]; [| |lia]; unfold deep; cbn [inner].
    - pose proof (rnd_error_add (val (edge64 g a 0)) (val (thick a 0%nat)) (fmt_val _) (fmt_val _)) as E.
      match goal with |- Rabs ?x <= _ => replace x with (rnd (val (edge64 g a 0) + val (thick a 0%nat)) - (val (edge64 g a 0) + val (thick a 0%nat))) by ring end.
      pose proof (Rabs_triang (val (edge64 g a 0)) (val (thick a 0%nat))) as Q. rewrite (Rabs_pos_eq (val (thick a 0%nat))) in Q by exact T. nra.
    - pose proof (rnd_error_add (val (edge64 g a 1)) (- val (thick a 1%nat)) (fmt_val _) ltac:(apply generic_format_opp; apply fmt_val)) as E.
      match goal with |- Rabs ?x <= _ => replace x with (- (rnd (val (edge64 g a 1) + - val (thick a 1%nat)) - (val (edge64 g a 1) + - val (thick a 1%nat)))) by (unfold Rminus; ring) end.
      rewrite Rabs_Ropp. pose proof (Rabs_triang (val (edge64 g a 1)) (- val (thick a 1%nat))) as Q.
      rewrite (Rabs_Ropp (val (thick a 1%nat))), (Rabs_pos_eq (val (thick a 1%nat))) in Q by exact T. nra.
  Qed.

  Lemma getitem64 a : (a < ndim BN g)%nat -> getitem_axis BN g (Z.of_nat a) = Ok (axis_range BN g a).
  Proof.
    intros Ha. destruct U as ((_ & Hm & Hs & _) & _). unfold getitem_axis. rewrite Hm, norm_index_nat, Hs by assumption. reflexivity.
  Qed.
  Lemma ranges64_seq m n : (m + n <= ndim BN g)%nat ->
    fold_right (fun i rest => do x <- getitem_axis BN g (Z.of_nat i); do l <- rest; Ok (x :: l)) (Ok []) (seq m n) = Ok (map (axis_range BN g) (seq m n)).
  Proof.
    revert m. induction n as [|n IH]; intros m H; [reflexivity|]. cbn [seq fold_right map]. rewrite getitem64 by lia. rewrite IH by lia. reflexivity.
  Qed.
  Lemma ranges64_ok : ranges BN g = Ok (map (axis_range BN g) (seq 0 (ndim BN g))).
  Proof. unfold ranges. destruct U as ((_ & Hm & _) & _). rewrite Hm. apply ranges64_seq. lia. Qed.
  Lemma between64 : exists w, between BN b = Ok w /\
    forall p, inside64 g p -> (w p = true <-> forall a s, (a < ndim BN g)%nat -> (s < 2)%nat -> deep a s (p a) <= 0).
  Proof.
    unfold between. rewrite ranges64_seq by lia. cbn [bind]. eexists. split; [reflexivity|]. intros p Hp. rewrite forallb_forall.
    assert (A : forall a, (a < ndim BN g)%nat -> (between_axis BN b a (nth a (map (axis_range BN g) (seq 0 (ndim BN g))) []) (p a) = true <-> deep a 0 (p a) <= 0 /\ deep a 1 (p a) <= 0)).
    { intros a Ha. rewrite nth_map_seq by assumption. pose proof (npts_pos a Ha) as Hn. assert (Hj : (p a < npts a)%nat) by (specialize (Hp a Ha); unfold npts; lia).
      destruct (inner_double a Ha) as ((F0 & V0) & (F1 & V1) & _ & _). unfold between_axis. rewrite andb_true_iff, range_length. fold (npts a). rewrite !coord_nth by (auto; lia).
      change (coordinate g a 0) with (edge64 g a 0). change (coordinate g a (npts a - 1)) with (edge64 g a 1). pose proof (coord_ok a (p a) Ha Hj) as [Fc _].
      rewrite (leb_val _ _ F0 Fc), (leb_val _ _ Fc F1), V0, V1. unfold deep. split; intros [? ?]; split; lra. }
    split.
    - intros H a s Ha Hs. specialize (H a ltac:(apply in_seq; lia)). apply A in H; [|assumption]. destruct s as [|[|s]]; [tauto|tauto|lia].
    - intros H a Ha. apply in_seq in Ha. apply A; [lia|]. split; apply H; lia.
  Qed.

  Definition good (m : nat) (p : nat -> nat) (x : BN) : Prop :=
    finite x /\ 0 <= val x /\ ((forall a s, (a < m)%nat -> (s < 2)%nat -> deep a s (p a) <= 0) -> val x = 0) /\
    (forall a s, (a < m)%nat -> (s < 2)%nat -> 0 < deep a s (p a) -> 0 < val (kmax a s) -> 0 < val x) /\
    (forall K, 0 <= K -> (forall a s, (a < m)%nat -> (s < 2)%nat -> 0 < val (thick a s) -> limit a s <= K) -> val x <= K).
  Lemma extinction64_fold m : (m <= ndim BN g)%nat ->
    exists kappa, fold_left (fun acc axis =>
      do kappa <- acc;
      if Nat.leb (ndim BN g) axis then Err IndexError
      else
        do front <- contribution BN b axis 0%nat (nth axis (map (axis_range BN g) (seq 0 (ndim BN g))) []);
        let kappa1 := match front with None => kappa | Some f => fun p => nmax (kappa p) (f (p axis)) end in
        do back <- contribution BN b axis 1%nat (nth axis (map (axis_range BN g) (seq 0 (ndim BN g))) []);
        Ok (match back with None => kappa1 | Some f => fun p => nmax (kappa1 p) (f (p axis)) end))
      (seq 0 m) (Ok (fun _ : nat -> nat => nofZ BN 0)) = Ok kappa /\ forall p, inside64 g p -> good m p (kappa p).
  Proof.
    induction m as [|m IH]; intros Hm.
    - eexists. split; [reflexivity|]. intros p Hp. refine (conj zero_fin (conj _ (conj _ (conj _ _)))); [rewrite zero_val; lra|intros _; apply zero_val|intros; lia|intros K HK0 _; rewrite zero_val; exact HK0].
    - destruct IH as (k0 & E0 & H0); [lia|]. rewrite seq_S, fold_left_app, E0. cbn [fold_left bind]. rewrite Nat.add_0_l.
      destruct (Nat.leb_spec (ndim BN g) m); [lia|]. rewrite nth_map_seq by lia.
      destruct (contribution64 m 0) as (c0 & -> & C0); [lia|lia|]. destruct (contribution64 m 1) as (c1 & -> & C1); [lia|lia|]. cbn [bind].
      eexists. split; [reflexivity|]. intros p Hp. specialize (H0 p Hp). assert (Hj : (p m < npts m)%nat) by (specialize (Hp m H); unfold npts; lia).
      specialize (C0 (p m) Hj). specialize (C1 (p m) Hj).
      assert (Mx : forall x c, finite x -> finite (cval c (p m)) -> 0 <= val x ->
        let y := match c with None => x | Some f => nmax (N := BN) x (f (p m)) end in finite y /\ val y = Rmax (val x) (val (cval c (p m)))).
      { intros x c Fx Fc Px. destruct c as [f|]; cbn [cval] in *; [apply max_val; assumption|]. split; [exact Fx|]. rewrite zero_val, Rmax_left by exact Px. reflexivity. }
      destruct H0 as (F & P & Z & Pos & Up). destruct C0 as (F0 & P0 & Z0 & Pos0 & Up0). destruct C1 as (F1 & P1 & Z1 & Pos1 & Up1).
      destruct (Mx (k0 p) c0 F F0 P) as [Fm Vm]. set (y := match c0 with None => k0 p | Some f => nmax (N := BN) (k0 p) (f (p m)) end) in *.
      assert (Py : 0 <= val y) by (rewrite Vm; eapply Rle_trans; [exact P|apply Rmax_l]).
      destruct (Mx y c1 Fm F1 Py) as [Fw Vw].
      match goal with |- good _ _ ?x => replace x with (match c1 with None => y | Some f => nmax (N := BN) y (f (p m)) end) end.
      2: { unfold y. destruct c1, c0; reflexivity. }
      set (w := match c1 with None => y | Some f => nmax (N := BN) y (f (p m)) end) in *. rewrite Vm in Vw.
      refine (conj Fw (conj _ (conj _ (conj _ _)))).
      + rewrite Vw. eapply Rle_trans; [|apply Rmax_r]. exact P1.
      + intros A. rewrite Vw. rewrite (Z ltac:(intros a s Ha Hs; apply A; lia)), (Z0 (A m 0%nat ltac:(lia) ltac:(lia))), (Z1 (A m 1%nat ltac:(lia) ltac:(lia))). rewrite !(Rmax_left 0 0) by lra. reflexivity.
      + intros a s Ha Hs Hd Hkk. rewrite Vw. destruct (Nat.eq_dec a m) as [->|Na].
        * destruct s as [|[|s]]; [| |lia].
          -- eapply Rlt_le_trans; [exact (Pos0 Hd Hkk)|]. eapply Rle_trans; [apply Rmax_r|apply Rmax_l].
          -- eapply Rlt_le_trans; [exact (Pos1 Hd Hkk)|apply Rmax_r].
        * eapply Rlt_le_trans; [exact (Pos a s ltac:(lia) Hs Hd Hkk)|]. eapply Rle_trans; [apply Rmax_l|apply Rmax_l].
      + intros K HK0 HL. rewrite Vw. apply Rmax_lub; [apply Rmax_lub|].
        * apply Up; [exact HK0|]. intros a s Ha. apply HL. lia.
        * destruct (Rlt_le_dec 0 (deep m 0 (p m))) as [D|D]; [destruct (Up0 D) as [T L]; eapply Rle_trans; [exact L|apply HL; auto]|rewrite Z0 by exact D; exact HK0].
        * destruct (Rlt_le_dec 0 (deep m 1 (p m))) as [D|D]; [destruct (Up1 D) as [T L]; eapply Rle_trans; [exact L|apply HL; auto]|rewrite Z1 by exact D; exact HK0].
  Qed.
  Lemma extinction64 : exists kappa, extinction BN b = Ok kappa /\ forall p, inside64 g p -> good (ndim BN g) p (kappa p).
  Proof. unfold extinction. rewrite ranges64_ok. cbn [bind]. rewrite map_length, seq_length. apply extinction64_fold. lia. Qed.
End Axis.

(** ** From the arguments of the constructor *)
Lemma broadcast1_map {A B} (F : A -> B) n l d d' f : broadcast1 n (map F l) d = Ok f -> exists f', broadcast1 n l d' = Ok f'.
Proof.
  unfold broadcast1. destruct l as [|x [|y l]]; cbn [map].
  - cbn [length]. destruct (Nat.eqb 0 n); [eauto|discriminate].
  - eauto.
  - cbn [length]. rewrite map_length. destruct (Nat.eqb (Datatypes.S (Datatypes.S (length l))) n); [eauto|discriminate].
Qed.
Lemma forallb_map {A B} (F : A -> B) (h : B -> bool) l : forallb h (map F l) = forallb (fun x => h (F x)) l.
Proof. induction l as [|x l IH]; cbn; [reflexivity|]. rewrite IH. reflexivity. Qed.
Lemma broadcast_sides_map {A B} (F : A -> B) n (k : sides_arg A) d d' f : broadcast_sides n (sides_map F k) d = Ok f -> exists f', broadcast_sides n k d' = Ok f'.
Proof.
  destruct k as [x|l|rows]; cbn [sides_map broadcast_sides].
  - eauto.
  - intros H. apply bind_ok in H as (f0 & H & _). destruct (broadcast1_map F 2 l d d' f0 H) as (f' & ->). cbn [bind]. eauto.
  - assert (N0 : nth 0 (map (map F) rows) [] = map F (nth 0 rows [])) by (destruct rows; reflexivity).
    rewrite N0, forallb_map, map_length.
    assert (E : forall q, forallb (fun x => Nat.eqb (length (map F x)) q) rows = forallb (fun x => Nat.eqb (length x) q) rows).
    { intros q. induction rows as [|r rows IH]; cbn; [reflexivity|]. rewrite map_length. f_equal. apply IH. destruct rows; reflexivity. }
    rewrite E. destruct (forallb _ rows); [|discriminate]. intros H. apply bind_ok in H as (f0 & H0 & H). apply bind_ok in H as (f1 & H1 & _).
    destruct (broadcast1_map (map F) n rows [] [] f0 H0) as (f' & ->). destruct (broadcast1_map F 2 _ d d' f1 H1) as (f'' & ->). cbn [bind]. eauto.
Qed.

Lemma some_deep n (d : nat -> nat -> R) :
  (exists a s, (a < n)%nat /\ (s < 2)%nat /\ 0 < d a s) \/ (forall a s, (a < n)%nat -> (s < 2)%nat -> d a s <= 0).
Proof.
  induction n as [|n IH]; [right; intros; lia|]. destruct IH as [(a & s & Ha & Hs & D)|IH]; [left; exists a, s; repeat split; auto; lia|].
  destruct (Rlt_le_dec 0 (d n 0%nat)) as [D|D0]; [left; exists n, 0%nat; repeat split; auto|].
  destruct (Rlt_le_dec 0 (d n 1%nat)) as [D|D1]; [left; exists n, 1%nat; repeat split; auto|].
  right. intros a s Ha Hs. destruct (Nat.eq_dec a n) as [->|Na]; [destruct s as [|[|s]]; [exact D0|exact D1|lia]|apply IH; lia].
Qed.
Local Notation sided := Bound_Spec.sided.
Theorem float_bound g t k b :
  upright64 g -> linear_bound BN g t k = Ok b ->
  (forall a s x, (a < ndim BN g)%nat -> (s < 2)%nat -> sided t a s x \/ sided k a s x -> moderate x /\ 0 <= val x) ->
  exists kappa within, extinction BN b = Ok kappa /\ between BN b = Ok within /\ forall p, inside64 g p ->
    finite (kappa p) /\ 0 <= val (kappa p) /\
    (within p = true -> val (kappa p) = 0) /\
    (within p = false -> (forall a s x, (a < ndim BN g)%nat -> (s < 2)%nat -> sided k a s x -> 0 < val x) -> 0 < val (kappa p)) /\
    (within p = true -> forall a s x, (a < ndim BN g)%nat -> (s < 2)%nat -> sided t a s x ->
       val x - unit_roundoff * (Rabs (val (edge64 g a s)) + val x) <= Rabs (val (coordinate g a (p a)) - val (edge64 g a s))) /\
    (within p = false -> exists a s x, (a < ndim BN g)%nat /\ (s < 2)%nat /\ sided t a s x /\
       Rabs (val (coordinate g a (p a)) - val (edge64 g a s)) < val x + unit_roundoff * (Rabs (val (edge64 g a s)) + val x)) /\
    (forall most, 0 <= most ->
       (forall a s x y, (a < ndim BN g)%nat -> (s < 2)%nat -> sided t a s x -> sided k a s y -> 0 < val x ->
          val y * (1 + bpow radix2 (-50) * (1 + Rabs (val (edge64 g a s)) / val x)) <= most) ->
       val (kappa p) <= most).
Proof.
  intros U H Hm. unfold linear_bound, absorbing_bound in H. apply bind_ok in H as (t' & Et & H). apply bind_ok in H as (f' & Ef & H). injection H as <-.
  destruct (broadcast_sides_map _ _ k _ (nofZ BN 0) _ Ef) as (k' & Ek).
  set (b := {| b_grid := g; thickness := t'; kappa_function := f' |}).
  assert (St : forall a s x, (a < ndim BN g)%nat -> (s < 2)%nat -> sided t a s x <-> x = t' a s) by (intros; eapply broadcast_sides_sided; eassumption).
  assert (Sk : forall a s x, (a < ndim BN g)%nat -> (s < 2)%nat -> sided k a s x <-> x = k' a s) by (intros; eapply broadcast_sides_sided; eassumption).
  assert (HK : forall a s x, (a < ndim BN g)%nat -> (s < 2)%nat -> kappa_function BN b a s x = nmul BN (k' a s) x).
  { intros a s x Ha Hs. cbn [kappa_function b].
    assert (Q : sided (sides_map (fun k0 rel_depth => nmul BN k0 rel_depth) k) a s (fun y => nmul BN (k' a s) y)).
    { apply sided_map. exists (k' a s). split; [apply Sk; auto|reflexivity]. }
    pose proof (proj1 (broadcast_sides_sided _ _ _ _ _ _ _ Ef Ha Hs) Q) as Q'. rewrite <- Q'. reflexivity. }
  assert (Ht : forall a s, (a < ndim BN g)%nat -> (s < 2)%nat -> moderate (thickness BN b a s) /\ 0 <= val (thickness BN b a s)).
  { intros a s Ha Hs. apply (Hm a s); auto. left. apply St; auto. }
  assert (Hk : forall a s, (a < ndim BN g)%nat -> (s < 2)%nat -> moderate (k' a s) /\ 0 <= val (k' a s)).
  { intros a s Ha Hs. apply (Hm a s); auto. right. apply Sk; auto. }
  destruct (extinction64 b k' U HK Ht Hk) as (kappa & Eq & Gd). destruct (between64 b k' U HK Ht Hk) as (w & Ew & W).
  exists kappa, w. refine (conj Eq (conj Ew _)). intros p Hp. destruct (Gd p Hp) as (F & P & Z & Pos & Up). specialize (W p Hp).
  assert (Nw : w p = false -> exists a s, (a < ndim BN g)%nat /\ (s < 2)%nat /\ 0 < deep b a s (p a)).
  { intros Hw. destruct (some_deep (ndim BN g) (fun a s => deep b a s (p a))) as [Q|Q]; [exact Q|]. exfalso.
    assert (w p = true); [|congruence]. apply W. exact Q. }
  assert (Hj : forall a, (a < ndim BN g)%nat -> (p a < npts b a)%nat) by (intros a Ha; specialize (Hp a Ha); unfold npts; cbn [b_grid b]; lia).
  refine (conj F (conj P (conj _ (conj _ (conj _ (conj _ _)))))).
  - intros Hw. apply Z. apply W. exact Hw.
  - intros Hw Hp'. destruct (Nw Hw) as (a & s & Ha & Hs & D). apply (Pos a s Ha Hs D). apply (Hp' a s); auto. apply Sk; auto.
  - intros Hw a s x Ha Hs Hx. apply St in Hx; [|assumption|assumption]. subst x. pose proof (proj1 W Hw a s Ha Hs) as D.
    pose proof (deep_near b k' U HK Ht Hk a s (p a) Ha Hs (Hj a Ha)) as E. unfold distance in E. cbn [b_grid thickness b] in *. apply Rabs_le_inv in E. lra.
  - intros Hw. destruct (Nw Hw) as (a & s & Ha & Hs & D). exists a, s, (t' a s). refine (conj Ha (conj Hs (conj _ _))); [apply St; auto|].
    pose proof (deep_near b k' U HK Ht Hk a s (p a) Ha Hs (Hj a Ha)) as E. unfold distance in E. cbn [b_grid thickness b] in *. apply Rabs_le_inv in E. lra.
  - intros K HK0 HL. apply Up; [exact HK0|]. intros a s Ha Hs T. apply (HL a s (t' a s) (k' a s)); auto; [apply St|apply Sk]; auto.
Qed.

(** ** A test for the example *)
Definition milli : BN := literal 1 1024.
Definition moderate_test (x : BN) : bool :=
  is_finite (x : b64) && (neqb BN x (nofZ BN 0) || (nleb BN milli x && nleb BN x (nofZ BN 1)) || (nleb BN x (nopp milli) && nleb BN (nopp (nofZ BN 1)) x)).
Lemma milli_val : finite milli /\ val milli = / 1024.
Proof. split; [reflexivity|]. replace (val milli) with (bpow radix2 (-10)); [reflexivity|]. vm_compute. lra. Qed.
Lemma moderate_tested x : moderate_test x = true -> moderate x.
Proof.
  destruct milli_val as [Fl L]. destruct (opp_val _ Fl) as [Fo Vo]. destruct (opp_val _ one_fin) as [F1 V1]. rewrite L in Vo. rewrite one_val in V1.
  assert (B1 : bpow radix2 (-300) <= / 1024) by (change (/ 1024) with (bpow radix2 (-10)); apply bpow_le; lia).
  assert (B2 : 1 <= bpow radix2 300) by (change 1 with (bpow radix2 0); apply bpow_le; lia).
  intros H. unfold moderate_test in H. apply andb_true_iff in H as [F H]. split; [exact F|].
  apply orb_true_iff in H as [H|H]; [apply orb_true_iff in H as [H|H]|].
  - left. apply (proj1 (eqb_val x (nofZ BN 0) F zero_fin)) in H. rewrite H. apply zero_val.
  - apply andb_true_iff in H as [H1 H2]. apply (proj1 (leb_val _ _ Fl F)) in H1. apply (proj1 (leb_val _ _ F one_fin)) in H2.
    rewrite one_val in H2. rewrite L in H1. right. rewrite Rabs_pos_eq; lra.
  - apply andb_true_iff in H as [H1 H2]. apply (proj1 (leb_val _ _ F Fo)) in H1. apply (proj1 (leb_val _ _ F1 F)) in H2.
    rewrite V1 in H2. rewrite Vo in H1. right. rewrite Rabs_left; lra.
Qed.
Lemma positive_tested x : moderate_test x && nleb BN milli x = true -> moderate x /\ 0 < val x.
Proof.
  intros H. apply andb_true_iff in H as [H1 H2]. apply moderate_tested in H1. split; [exact H1|]. destruct milli_val as [Fl L].
  apply (proj1 (leb_val _ _ Fl (proj1 H1))) in H2. lra.
Qed.
