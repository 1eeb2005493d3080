(** Double precision operations are the exact ones rounded, as long as the result is finite. *)
From Coq Require Import ZArith Reals Lia Lra Psatz.
From Flocq Require Import Core.Core IEEE754.BinarySingleNaN.
From Flocq Require Import Relative Plus_error.
From Verif Require Import Base Num Grid_Model Float_Model Float_Spec.
Local Open Scope R_scope.

Definition rnd (x : R) : R := round radix2 (FLT_exp (-1074) 53) ZnearestE x.
Definition fmt (x : R) : Prop := generic_format radix2 (FLT_exp (-1074) 53) x.

#[global] Instance valid_FLT64 : Valid_exp (FLT_exp (-1074) 53).
Proof. apply FLT_exp_valid. reflexivity. Qed.

Lemma fmt_val x : fmt (val x).
Proof. apply (generic_format_B2R 53 1024). Qed.
Lemma rnd_fmt x : fmt x -> rnd x = x.
Proof. intros H. apply round_generic; [apply valid_rnd_N|exact H]. Qed.
Lemma rnd_le x y : x <= y -> rnd x <= rnd y.
Proof. intros H. apply round_le; [apply valid_FLT64|apply valid_rnd_N|exact H]. Qed.
Lemma rnd_0 : rnd 0 = 0.
Proof. apply round_0. apply valid_rnd_N. Qed.
Lemma rnd_opp x : rnd (- x) = - rnd x.
Proof. apply round_NE_opp. Qed.
Lemma fmt_rnd x : fmt (rnd x).
Proof. apply generic_format_round; [apply valid_FLT64|apply valid_rnd_N]. Qed.

Lemma fmt_IZR z : (Z.abs z <= 2 ^ 53)%Z -> fmt (IZR z).
Proof.
  intros H. apply generic_format_FLT.
  assert (Z.abs z < 2 ^ 53 \/ Z.abs z = 2 ^ 53)%Z as [L|E] by lia.
  - exists (Float radix2 z 0); [unfold F2R; cbn; lra|exact L|cbn; lia].
  - exists (Float radix2 (Z.sgn z) 53).
    + unfold F2R. cbn [Fnum Fexp]. change (bpow radix2 53) with (IZR (2 ^ 53)). rewrite <- mult_IZR. f_equal. lia.
    + cbn [Fnum]. change (Z.pow radix2 53) with (2 ^ 53)%Z. lia.
    + cbn. lia.
Qed.
Lemma below_max x : fmt x -> Rabs x <= IZR (2 ^ 53) -> Rabs (rnd x) < bpow radix2 1024.
Proof.
  intros F H. rewrite rnd_fmt by exact F. eapply Rle_lt_trans; [exact H|].
  change (IZR (2 ^ 53)) with (bpow radix2 53). apply bpow_lt. lia.
Qed.

Lemma ofZ_val z : (Z.abs z <= 2 ^ 53)%Z -> finite (nofZ BN z) /\ val (nofZ BN z) = IZR z.
Proof.
  intros H. unfold finite, val. cbn [nofZ BN]. unfold b64_of_Z.
  pose proof (binary_normalize_correct 53 1024 prec_53 prec_1024 mode_NE z 0 false) as P. cbv zeta in P.
  assert (F2R (Float radix2 z 0) = IZR z) as E by (unfold F2R; cbn; lra).
  rewrite E in P. change (round radix2 (SpecFloat.fexp 53 1024) (round_mode mode_NE) (IZR z)) with (rnd (IZR z)) in P.
  pose proof (fmt_IZR z H) as F.
  rewrite Rlt_bool_true in P.
  - destruct P as (V & I & _). split; [exact I|]. rewrite V. apply rnd_fmt. exact F.
  - apply below_max; [exact F|]. rewrite <- abs_IZR. apply IZR_le. exact H.
Qed.

Lemma inf_overflow x s : B2SF x = binary_overflow 53 1024 mode_NE s -> is_finite (x : b64) = false.
Proof. destruct x; cbn; try reflexivity; intros H; discriminate. Qed.

Lemma add_val x y : finite (nadd BN x y) -> finite x /\ finite y /\ val (nadd BN x y) = rnd (val x + val y).
Proof.
  unfold finite. cbn [nadd BN]. intros H.
  assert (is_finite x = true) as Fx by (destruct x, y; cbn in H |- *; congruence || (try destruct (Bool.eqb _ _); cbn in H; congruence) || reflexivity).
  assert (is_finite y = true) as Fy by (destruct x, y; cbn in H |- *; congruence || (try destruct (Bool.eqb _ _); cbn in H; congruence) || reflexivity).
  split; [exact Fx|]. split; [exact Fy|].
  pose proof (Bplus_correct 53 1024 prec_53 prec_1024 mode_NE x y Fx Fy) as P.
  destruct (Rlt_bool _ _).
  - apply P.
  - destruct P as [P _]. apply inf_overflow in P. congruence.
Qed.
Lemma sub_val x y : finite (nsub BN x y) -> finite x /\ finite y /\ val (nsub BN x y) = rnd (val x - val y).
Proof.
  unfold finite. cbn [nsub BN]. intros H.
  assert (is_finite x = true) as Fx by (destruct x, y; cbn in H |- *; congruence || (try destruct (Bool.eqb _ _); cbn in H; congruence) || reflexivity).
  assert (is_finite y = true) as Fy by (destruct x, y; cbn in H |- *; congruence || (try destruct (Bool.eqb _ _); cbn in H; congruence) || reflexivity).
  split; [exact Fx|]. split; [exact Fy|].
  pose proof (Bminus_correct 53 1024 prec_53 prec_1024 mode_NE x y Fx Fy) as P.
  destruct (Rlt_bool _ _).
  - apply P.
  - destruct P as [P _]. apply inf_overflow in P. congruence.
Qed.
Lemma mul_val x y : finite (nmul BN x y) -> finite x /\ finite y /\ val (nmul BN x y) = rnd (val x * val y).
Proof.
  unfold finite. cbn [nmul BN]. intros H.
  pose proof (Bmult_correct 53 1024 prec_53 prec_1024 mode_NE x y) as P.
  destruct (Rlt_bool _ _).
  - destruct P as (V & F & _). rewrite H in F. symmetry in F. apply andb_prop in F. destruct F. repeat split; assumption.
  - apply inf_overflow in P. congruence.
Qed.
Lemma div_val x y : val y <> 0 -> finite (ndiv BN x y) -> finite x /\ val (ndiv BN x y) = rnd (val x / val y).
Proof.
  unfold finite. cbn [ndiv BN]. intros Z H.
  pose proof (Bdiv_correct 53 1024 prec_53 prec_1024 mode_NE x y Z) as P.
  destruct (Rlt_bool _ _).
  - destruct P as (V & F & _). rewrite H in F. split; [auto|exact V].
  - apply inf_overflow in P. congruence.
Qed.

(** When the rounded result is in range the operation is finite. *)
Lemma add_fin x y : finite x -> finite y -> Rabs (rnd (val x + val y)) < bpow radix2 1024 -> finite (nadd BN x y).
Proof.
  unfold finite. intros Fx Fy H. pose proof (Bplus_correct 53 1024 prec_53 prec_1024 mode_NE x y Fx Fy) as P.
  change (round radix2 (SpecFloat.fexp 53 1024) (round_mode mode_NE) (B2R x + B2R y)) with (rnd (val x + val y)) in P.
  rewrite Rlt_bool_true in P by exact H. apply P.
Qed.
Lemma sub_fin x y : finite x -> finite y -> Rabs (rnd (val x - val y)) < bpow radix2 1024 -> finite (nsub BN x y).
Proof.
  unfold finite. intros Fx Fy H. pose proof (Bminus_correct 53 1024 prec_53 prec_1024 mode_NE x y Fx Fy) as P.
  change (round radix2 (SpecFloat.fexp 53 1024) (round_mode mode_NE) (B2R x - B2R y)) with (rnd (val x - val y)) in P.
  rewrite Rlt_bool_true in P by exact H. apply P.
Qed.
Lemma mul_fin x y : finite x -> finite y -> Rabs (rnd (val x * val y)) < bpow radix2 1024 -> finite (nmul BN x y).
Proof.
  unfold finite. intros Fx Fy H. pose proof (Bmult_correct 53 1024 prec_53 prec_1024 mode_NE x y) as P.
  change (round radix2 (SpecFloat.fexp 53 1024) (round_mode mode_NE) (B2R x * B2R y)) with (rnd (val x * val y)) in P.
  rewrite Rlt_bool_true in P by exact H. destruct P as (_ & P & _). cbn [nmul BN]. rewrite P, Fx, Fy. reflexivity.
Qed.
Lemma div_fin x y : finite x -> val y <> 0 -> Rabs (rnd (val x / val y)) < bpow radix2 1024 -> finite (ndiv BN x y).
Proof.
  unfold finite. intros Fx Z H. pose proof (Bdiv_correct 53 1024 prec_53 prec_1024 mode_NE x y Z) as P.
  change (round radix2 (SpecFloat.fexp 53 1024) (round_mode mode_NE) (B2R x / B2R y)) with (rnd (val x / val y)) in P.
  rewrite Rlt_bool_true in P by exact H. destruct P as (_ & P & _). cbn [ndiv BN]. rewrite P. exact Fx.
Qed.

(** Comparisons. *)
Lemma eqb_val x y : finite x -> finite y -> neqb BN x y = true <-> val x = val y.
Proof.
  intros Fx Fy. cbn [neqb BN]. rewrite Beqb_correct by assumption. unfold val.
  split; [|apply Req_bool_true]. case Req_bool_spec; [auto|discriminate].
Qed.
Lemma eqb_val_false x y : finite x -> finite y -> neqb BN x y = false <-> val x <> val y.
Proof. intros Fx Fy. rewrite <- (eqb_val x y Fx Fy). destruct (neqb BN x y); split; congruence. Qed.
Lemma eqb_refl x : finite x -> neqb BN x x = true.
Proof. intros F. apply eqb_val; auto. Qed.
Lemma leb_val x y : finite x -> finite y -> nleb BN x y = true <-> val x <= val y.
Proof.
  intros Fx Fy. cbn [nleb BN]. rewrite Bleb_correct by assumption. unfold val.
  split; [|apply Rle_bool_true]. case Rle_bool_spec; [auto|discriminate].
Qed.

(** Floor. *)
Lemma floor_val x : finite x -> nfloor BN x = Zfloor (val x).
Proof.
  unfold finite. intros F. symmetry. unfold val. cbn [nfloor BN].
  destruct x as [s|s| |s m e B]; cbn in F; try discriminate.
  - cbn. apply Zfloor_IZR.
  - cbn [B2R b64_floor]. unfold F2R. cbn [Fnum Fexp].
    replace (cond_Zopp s (Zpos m)) with (if s then Z.neg m else Z.pos m) by (destruct s; reflexivity).
    set (v := if s then Z.neg m else Z.pos m). clearbody v. destruct (Z.leb_spec 0 e) as [L|L].
    + rewrite <- (IZR_Zpower radix2) by exact L. rewrite <- mult_IZR. apply Zfloor_IZR.
    + replace e with (- (- e))%Z at 1 by lia. rewrite bpow_opp, <- (IZR_Zpower radix2) by lia.
      change (Z.pow radix2 (- e)) with (2 ^ (- e))%Z.
      assert (0 < 2 ^ (- e))%Z as P by (apply Z.pow_pos_nonneg; lia).
      set (d := (2 ^ (- e))%Z) in *. clearbody d. apply Zfloor_imp.
      assert (0 < IZR d) as Pd by (apply IZR_lt; exact P).
      split.
      * apply Rmult_le_reg_r with (IZR d); [exact Pd|]. rewrite Rmult_assoc, Rinv_l, Rmult_1_r by lra.
        rewrite <- mult_IZR. apply IZR_le. rewrite Z.mul_comm. apply Z.mul_div_le. exact P.
      * apply Rmult_lt_reg_r with (IZR d); [exact Pd|]. rewrite Rmult_assoc, Rinv_l, Rmult_1_r by lra.
        rewrite <- mult_IZR. apply IZR_lt. pose proof (Z.div_mod v d) as DM. pose proof (Z.mod_pos_bound v d P). lia.
Qed.

Lemma ofZ_fin z : (Z.abs z <= 2 ^ 53)%Z -> finite (nofZ BN z).
Proof. apply ofZ_val. Qed.
Lemma ofZ_eq z : (Z.abs z <= 2 ^ 53)%Z -> val (nofZ BN z) = IZR z.
Proof. apply ofZ_val. Qed.

Lemma val_bound x : Rabs (val x) < bpow radix2 1024.
Proof. apply (abs_B2R_lt_emax 53 1024). Qed.

Lemma opp_val x : finite x -> finite (nopp x) /\ val (nopp x) = - val x.
Proof.
  intros F. unfold nopp. destruct (ofZ_val 0) as [F0 E0]; [lia|].
  assert (rnd (val (nofZ BN 0) - val x) = - val x) as E.
  { rewrite E0. replace (0 - val x) with (- val x) by ring. rewrite rnd_opp, rnd_fmt; auto. apply fmt_val. }
  assert (finite (nsub BN (nofZ BN 0) x)) as G.
  { apply sub_fin; auto. rewrite E. rewrite Rabs_Ropp. apply val_bound. }
  split; [exact G|]. destruct (sub_val _ _ G) as (_ & _ & V). rewrite V, E. reflexivity.
Qed.
Lemma ceil_val x : finite x -> nceil x = Zceil (val x).
Proof.
  intros F. unfold nceil, Zceil. destruct (opp_val x F) as [G V]. rewrite floor_val, V by exact G. reflexivity.
Qed.
Lemma abs_val x : finite x -> finite (nabs x) /\ val (nabs x) = Rabs (val x).
Proof.
  intros F. unfold nabs. destruct (ofZ_val 0) as [F0 E0]; [lia|].
  destruct (nleb BN (nofZ BN 0) x) eqn:E.
  - apply leb_val in E; auto. rewrite E0 in E. split; [exact F|]. rewrite Rabs_pos_eq; auto.
  - destruct (opp_val x F) as [G V]. split; [exact G|]. rewrite V. symmetry. apply Rabs_left1.
    destruct (Rle_or_lt (val x) 0) as [L|L]; [exact L|].
    assert (nleb BN (nofZ BN 0) x = true) by (apply leb_val; auto; rewrite E0; lra). congruence.
Qed.

(** Rounding errors. *)
Lemma half_ulp : / 2 * bpow radix2 (- (53) + 1) = unit_roundoff.
Proof. unfold unit_roundoff. change (/ 2) with (bpow radix2 (-1)). rewrite <- bpow_plus. reflexivity. Qed.
Lemma half_smallest : / 2 * bpow radix2 (-1074) <= smallest.
Proof. unfold smallest. pose proof (bpow_gt_0 radix2 (-1074)). lra. Qed.
Lemma u_pos : 0 < unit_roundoff.
Proof. apply bpow_gt_0. Qed.
Lemma u_small : unit_roundoff <= / 1024.
Proof. unfold unit_roundoff. change (/ 1024) with (bpow radix2 (-10)). apply bpow_le. lia. Qed.
Lemma smallest_pos : 0 < smallest.
Proof. apply bpow_gt_0. Qed.

Lemma rnd_error x : Rabs (rnd x - x) <= unit_roundoff * Rabs x + / 2 * smallest.
Proof.
  destruct (error_N_FLT radix2 (-1074) 53 eq_refl (fun x => negb (Z.even x)) x) as (eps & eta & H1 & H2 & _ & H3).
  rewrite half_ulp in H1. unfold rnd. fold smallest in H2. rewrite H3.
  replace (x * (1 + eps) + eta - x) with (x * eps + eta) by ring.
  eapply Rle_trans; [apply Rabs_triang|]. rewrite Rabs_mult. apply Rplus_le_compat; [|exact H2].
  rewrite Rmult_comm. apply Rmult_le_compat_r; [apply Rabs_pos|exact H1].
Qed.
Lemma rnd_error_normal x : normal x -> Rabs (rnd x - x) <= unit_roundoff * Rabs x.
Proof.
  intros H. rewrite <- half_ulp. apply (relative_error_N_FLT radix2 (-1074) 53 eq_refl). exact H.
Qed.
Lemma rnd_error_add x y : fmt x -> fmt y -> Rabs (rnd (x + y) - (x + y)) <= unit_roundoff * Rabs (x + y).
Proof.
  intros Fx Fy.
  destruct (FLT_plus_error_N_ex radix2 (-1074) 53 (fun x => negb (Z.even x)) x y Fx Fy) as (eps & H & E).
  unfold rnd. rewrite E.
  replace ((x + y) * (1 + eps) - (x + y)) with (eps * (x + y)) by ring. rewrite Rabs_mult.
  apply Rmult_le_compat_r; [apply Rabs_pos|]. eapply Rle_trans; [exact H|].
  assert (u_ro radix2 53 = unit_roundoff) as -> by apply half_ulp.
  pose proof u_pos. apply Rmult_le_reg_r with (1 + unit_roundoff); [lra|].
  unfold Rdiv. rewrite Rmult_assoc, Rinv_l, Rmult_1_r by lra. nra.
Qed.
Lemma rnd_error_add_round x y : fmt x -> fmt y ->
  Rabs (rnd (x + y) - (x + y)) <= unit_roundoff * Rabs (rnd (x + y)).
Proof.
  intros Fx Fy.
  destruct (FLT_plus_error_N_round_ex radix2 (-1074) 53 (fun x => negb (Z.even x)) x y Fx Fy) as (eps & H & E).
  assert (u_ro radix2 53 = unit_roundoff) as U by apply half_ulp. rewrite U in H.
  unfold rnd. rewrite E at 2.
  set (r := round _ _ _ _) in *. replace (r - r * (1 + eps)) with (- (eps * r)) by ring.
  rewrite Rabs_Ropp, Rabs_mult. apply Rmult_le_compat_r; [apply Rabs_pos|exact H].
Qed.
