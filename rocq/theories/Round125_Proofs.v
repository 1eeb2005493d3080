From Coq Require Import Reals Lra Lia ZArith ZifyBool.
From Flocq Require Import Core.Raux Core.Generic_fmt Core.Round_NE.
From Verif Require Import Round125_Model.
Local Open Scope R_scope.
Ltac Zify.zify_post_hook ::= Z.div_mod_to_equations.

Lemma ln10_pos : 0 < ln 10.
Proof. rewrite <- ln_1. apply ln_increasing; lra. Qed.
Lemma pow10_pos x : 0 < pow10 x. Proof. apply exp_pos. Qed.
Lemma pow10_0 : pow10 0 = 1. Proof. unfold pow10. rewrite Rmult_0_l. apply exp_0. Qed.
Lemma pow10_1 : pow10 1 = 10. Proof. unfold pow10. rewrite Rmult_1_l. apply exp_ln. lra. Qed.
Lemma pow10_plus x y : pow10 (x + y) = pow10 x * pow10 y.
Proof. unfold pow10. rewrite Rmult_plus_distr_r. apply exp_plus. Qed.
Lemma pow10_opp x : pow10 (- x) = / pow10 x.
Proof. unfold pow10. rewrite Ropp_mult_distr_l_reverse. apply exp_Ropp. Qed.
Lemma pow10_lt x y : x < y <-> pow10 x < pow10 y.
Proof.
  unfold pow10. pose proof ln10_pos. split.
  - intros H1. apply exp_increasing. nra.
  - intros H1. apply exp_lt_inv in H1. nra.
Qed.
Lemma pow10_le x y : x <= y <-> pow10 x <= pow10 y.
Proof.
  split; intros H.
  - destruct H as [H| ->]; [left; apply (proj1 (pow10_lt _ _)); assumption|right; reflexivity].
  - destruct (Rle_dec x y); [assumption|]. exfalso. assert (y < x) as L by lra. apply (proj1 (pow10_lt _ _)) in L. lra.
Qed.
Lemma pow10_log10 x : 0 < x -> pow10 (log10 x) = x.
Proof.
  intros H. unfold pow10, log10. pose proof ln10_pos. replace (ln x / ln 10 * ln 10) with (ln x) by (field; lra).
  apply exp_ln. assumption.
Qed.
Lemma log10_pow10 x : log10 (pow10 x) = x.
Proof. unfold pow10, log10. rewrite ln_exp. pose proof ln10_pos. field. lra. Qed.
Lemma log10_le x y : 0 < x -> 0 < y -> (x <= y <-> log10 x <= log10 y).
Proof. intros Hx Hy. rewrite (pow10_le (log10 x)), !pow10_log10 by assumption. reflexivity. Qed.
Lemma log10_lt x y : 0 < x -> 0 < y -> (x < y <-> log10 x < log10 y).
Proof. intros Hx Hy. rewrite (pow10_lt (log10 x)), !pow10_log10 by assumption. reflexivity. Qed.
Lemma log10_le1 x y : 0 < x -> 0 < y -> x <= y -> log10 x <= log10 y.
Proof. intros. apply (proj1 (log10_le x y ltac:(assumption) ltac:(assumption))). assumption. Qed.
Lemma log10_lt1 x y : 0 < x -> 0 < y -> x < y -> log10 x < log10 y.
Proof. intros. apply (proj1 (log10_lt x y ltac:(assumption) ltac:(assumption))). assumption. Qed.
Lemma log10_le2 x y : 0 < x -> 0 < y -> log10 x <= log10 y -> x <= y.
Proof. intros. apply (proj2 (log10_le x y ltac:(assumption) ltac:(assumption))). assumption. Qed.
Lemma log10_mult x y : 0 < x -> 0 < y -> log10 (x * y) = log10 x + log10 y.
Proof. intros. unfold log10. rewrite ln_mult by assumption. pose proof ln10_pos. field. lra. Qed.
Lemma pow10_nat n : pow10 (INR n) = 10 ^ n.
Proof. induction n; [apply pow10_0|]. rewrite S_INR, pow10_plus, IHn, pow10_1. simpl. ring. Qed.
Lemma pow10_m10 : pow10 (-10) = / 10 ^ 10.
Proof. replace (-10) with (- INR 10) by (simpl; lra). rewrite pow10_opp, pow10_nat. reflexivity. Qed.
Lemma pow10_cube x : pow10 x * pow10 x * pow10 x = pow10 (3 * x).
Proof. rewrite <- !pow10_plus. f_equal. ring. Qed.

(** The leading digit selected for remainder 0, 1, 2. *)
Definition digit (r : Z) : R := if (r =? 0)%Z then 1 else if (r =? 1)%Z then 2 else 5.

Lemma cube_lt a b : 0 <= a -> 0 <= b -> a * a * a < b * b * b -> a < b.
Proof. intros Ha Hb H. destruct (Rlt_dec a b); [assumption|]. exfalso. assert (b <= a) by lra. assert (b * b <= a * a) by nra. assert (b * b * b <= a * a * a) by (apply Rmult_le_compat; nra). lra. Qed.

Lemma pre_factor r : (0 <= r < 3)%Z -> IZR (ZnearestE (pow10 (IZR r / 3))) = digit r.
Proof.
  intros H. assert (r = 0 \/ r = 1 \/ r = 2)%Z as [->|[->| ->]] by lia; unfold digit; cbn [Z.eqb Pos.eqb].
  - replace (0 / 3) with 0 by lra. rewrite pow10_0. f_equal. apply Znearest_imp. rewrite Rminus_diag_eq by reflexivity. rewrite Rabs_R0. lra.
  - f_equal. apply Znearest_imp. pose proof (pow10_pos (1 / 3)). pose proof (pow10_cube (1 / 3)) as Q. replace (3 * (1 / 3)) with 1 in Q by lra. rewrite pow10_1 in Q.
    apply Rabs_def1; [apply Rplus_lt_reg_r with 2; ring_simplify; apply cube_lt; lra|].
    assert (3 / 2 < pow10 (1 / 3)); [apply cube_lt; lra|lra].
  - f_equal. apply Znearest_imp. pose proof (pow10_pos (2 / 3)). pose proof (pow10_cube (2 / 3)) as Q.
    replace (3 * (2 / 3)) with (1 + 1) in Q by lra. rewrite pow10_plus, pow10_1 in Q.
    apply Rabs_def1; [assert (pow10 (2 / 3) < 11 / 2); [apply cube_lt; lra|lra]|].
    assert (9 / 2 < pow10 (2 / 3)); [apply cube_lt; lra|lra].
Qed.

Lemma floor_third m : Zfloor (IZR m / 3) = (m / 3)%Z.
Proof.
  apply Zfloor_imp. assert (m = 3 * (m / 3) + m mod 3)%Z as E by lia. assert (0 <= m mod 3 < 3)%Z as B by lia.
  set (k := (m / 3)%Z) in *. set (r := (m mod 3)%Z) in *. rewrite E, plus_IZR, mult_IZR, plus_IZR.
  assert (0 <= IZR r <= 2) by (split; apply IZR_le; lia). lra.
Qed.

(** The value on the raster with index [m]. *)
Definition raster (m : Z) : R := digit (m mod 3) * pow10 (IZR (m / 3)).
Definition index (a : R) : Z := ZnearestE (3 * log10 (Rmax (Rabs a) (/ 10 ^ 10))).
Lemma round125_raster v : round125 v = signR v * raster (index v).
Proof.
  unfold round125, raster, index. set (m := ZnearestE (3 * log10 _)). rewrite floor_third.
  replace (IZR m / 3 - IZR (m / 3)) with (IZR (m mod 3) / 3).
  - rewrite pre_factor by lia. ring.
  - assert (m = 3 * (m / 3) + m mod 3)%Z as E by lia. set (k := (m / 3)%Z) in *. set (r := (m mod 3)%Z) in *.
    rewrite E. rewrite plus_IZR, mult_IZR. lra.
Qed.
Lemma digit_pos r : 1 <= digit r. Proof. unfold digit. destruct (r =? 0)%Z, (r =? 1)%Z; lra. Qed.
Lemma raster_pos m : 0 < raster m.
Proof. unfold raster. pose proof (digit_pos (m mod 3)). pose proof (pow10_pos (IZR (m / 3))). nra. Qed.

Lemma raster_step m : raster m < raster (m + 1).
Proof.
  unfold raster. pose proof (pow10_pos (IZR (m / 3))) as P.
  assert (m mod 3 = 0 \/ m mod 3 = 1 \/ m mod 3 = 2)%Z as [E|[E|E]] by lia.
  - replace ((m + 1) mod 3)%Z with 1%Z by lia. replace ((m + 1) / 3)%Z with (m / 3)%Z by lia. rewrite E. unfold digit. cbn [Z.eqb Pos.eqb]. lra.
  - replace ((m + 1) mod 3)%Z with 2%Z by lia. replace ((m + 1) / 3)%Z with (m / 3)%Z by lia. rewrite E. unfold digit. cbn [Z.eqb Pos.eqb]. lra.
  - replace ((m + 1) mod 3)%Z with 0%Z by lia. replace ((m + 1) / 3)%Z with (m / 3 + 1)%Z by lia. rewrite E. unfold digit. cbn [Z.eqb Pos.eqb].
    rewrite plus_IZR, pow10_plus, pow10_1. lra.
Qed.
Lemma raster_mono m n : (m <= n)%Z -> raster m <= raster n.
Proof.
  intros H. replace n with (m + Z.of_nat (Z.to_nat (n - m)))%Z by lia. induction (Z.to_nat (n - m)) as [|k IH].
  - replace (m + Z.of_nat 0)%Z with m by lia. lra.
  - replace (m + Z.of_nat (S k))%Z with (m + Z.of_nat k + 1)%Z by lia. pose proof (raster_step (m + Z.of_nat k)). lra.
Qed.

Lemma clamp_pos v : 0 < Rmax (Rabs v) (/ 10 ^ 10).
Proof. eapply Rlt_le_trans; [|apply Rmax_r]. apply Rinv_0_lt_compat. lra. Qed.

Lemma index_mono v w : Rabs v <= Rabs w -> (index v <= index w)%Z.
Proof.
  intros H. unfold index. apply (@Zrnd_le ZnearestE (valid_rnd_N _)). apply Rmult_le_compat_l; [lra|]. apply log10_le1; try apply clamp_pos.
  apply Rle_max_compat_r. assumption.
Qed.

Theorem round125_zero : round125 0 = 0.
Proof. unfold round125, signR. destruct (Rlt_dec 0 0); [lra|]. ring. Qed.
Lemma digit_cases r : digit r = 1 \/ digit r = 2 \/ digit r = 5.
Proof. unfold digit. destruct (r =? 0)%Z, (r =? 1)%Z; auto. Qed.
Theorem round125_form v : v <> 0 -> exists d n, (d = 1 \/ d = 2 \/ d = 5) /\
  round125 v = (if Rlt_dec v 0 then -1 else 1) * d * powerRZ 10 n.
Proof.
  intros H. rewrite round125_raster. exists (digit (index v mod 3)), (index v / 3)%Z. split; [apply digit_cases|].
  unfold raster, signR.
  assert (pow10 (IZR (index v / 3)) = powerRZ 10 (index v / 3)) as ->.
  { set (k := (index v / 3)%Z). destruct k as [|p|p]; cbn [powerRZ].
    - apply pow10_0.
    - rewrite <- pow10_nat, INR_IZR_INZ, positive_nat_Z. reflexivity.
    - rewrite <- pow10_nat, INR_IZR_INZ, positive_nat_Z, <- pow10_opp, <- opp_IZR. reflexivity. }
  destruct (Rlt_dec v 0); [ring|]. destruct (Rlt_dec 0 v); [ring|lra].
Qed.
Theorem round125_odd v : round125 (- v) = - round125 v.
Proof.
  rewrite !round125_raster. unfold index. rewrite Rabs_Ropp. unfold signR.
  destruct (Rlt_dec (-v) 0), (Rlt_dec v 0), (Rlt_dec 0 (-v)), (Rlt_dec 0 v); lra.
Qed.
Theorem round125_monotone v w : v <= w -> round125 v <= round125 w.
Proof.
  intros H. rewrite !round125_raster. pose proof (raster_pos (index v)). pose proof (raster_pos (index w)). unfold signR.
  destruct (Rlt_dec v 0), (Rlt_dec w 0), (Rlt_dec 0 v), (Rlt_dec 0 w); try lra.
  - assert (raster (index w) <= raster (index v)); [|lra]. apply raster_mono, index_mono. rewrite !Rabs_left by lra. lra.
  - assert (raster (index v) <= raster (index w)); [|lra]. apply raster_mono, index_mono. rewrite !Rabs_pos_eq by lra. lra.
Qed.

Lemma log10_digit r : (0 <= r < 3)%Z -> Rabs (3 * log10 (digit r) - IZR r) < / 10.
Proof.
  intros H. assert (r = 0 \/ r = 1 \/ r = 2)%Z as [->|[->| ->]] by lia; unfold digit; cbn [Z.eqb Pos.eqb].
  - unfold log10. rewrite ln_1. unfold Rdiv. rewrite Rmult_0_l, Rmult_0_r, Rminus_0_r, Rabs_R0. lra.
  - (* 10^9 < 2^30 < 10^11 *)
    assert (30 * log10 2 = log10 (2 ^ 30)) as E by (unfold log10; rewrite ln_pow by lra; simpl; pose proof ln10_pos; field; lra).
    assert (log10 (10 ^ 9) = 9) as E7 by (rewrite <- pow10_nat, log10_pow10; simpl; lra).
    assert (log10 (10 ^ 11) = 11) as E9 by (rewrite <- pow10_nat, log10_pow10; simpl; lra).
    assert (log10 (10 ^ 9) < log10 (2 ^ 30)) by (apply log10_lt1; lra).
    assert (log10 (2 ^ 30) < log10 (10 ^ 11)) by (apply log10_lt1; lra).
    apply Rabs_def1; lra.
  - assert (30 * log10 5 = log10 (5 ^ 30)) as E by (unfold log10; rewrite ln_pow by lra; simpl; pose proof ln10_pos; field; lra).
    assert (log10 (10 ^ 19) = 19) as E7 by (rewrite <- pow10_nat, log10_pow10; simpl; lra).
    assert (log10 (10 ^ 21) = 21) as E9 by (rewrite <- pow10_nat, log10_pow10; simpl; lra).
    assert (log10 (10 ^ 19) < log10 (5 ^ 30)) by (apply log10_lt1; lra).
    assert (log10 (5 ^ 30) < log10 (10 ^ 21)) by (apply log10_lt1; lra).
    apply Rabs_def1; lra.
Qed.
Lemma log10_raster m : Rabs (3 * log10 (raster m) - IZR m) < / 10.
Proof.
  unfold raster. rewrite log10_mult by (try apply pow10_pos; pose proof (digit_pos (m mod 3)); lra).
  rewrite log10_pow10. pose proof (log10_digit (m mod 3) ltac:(lia)) as L.
  replace (3 * (log10 (digit (m mod 3)) + IZR (m / 3)) - IZR m) with (3 * log10 (digit (m mod 3)) - IZR (m mod 3)); [exact L|].
  assert (m = 3 * (m / 3) + m mod 3)%Z as E by lia. set (k := (m / 3)%Z) in *. set (r := (m mod 3)%Z) in *.
  rewrite E. rewrite plus_IZR, mult_IZR. ring.
Qed.
Lemma index_ge v : (-30 <= index v)%Z.
Proof.
  unfold index. rewrite <- (@Zrnd_IZR ZnearestE (valid_rnd_N _) (-30)). apply (@Zrnd_le ZnearestE (valid_rnd_N _)).
  assert (-10 <= log10 (Rmax (Rabs v) (/ 10 ^ 10))); [|lra].
  rewrite <- (log10_pow10 (-10)). apply log10_le1; [apply pow10_pos|apply clamp_pos|]. rewrite pow10_m10. apply Rmax_r.
Qed.
Lemma raster_m30 : raster (-30) = / 10 ^ 10.
Proof. unfold raster. change (-30 mod 3)%Z with 0%Z. change (-30 / 3)%Z with (-10)%Z. rewrite pow10_m10. unfold digit. cbn [Z.eqb Pos.eqb]. ring. Qed.
Lemma index_raster m : (-30 <= m)%Z -> index (raster m) = m.
Proof.
  intros H. unfold index. rewrite Rabs_pos_eq by (left; apply raster_pos).
  rewrite Rmax_left by (rewrite <- raster_m30; apply raster_mono; assumption).
  apply Znearest_imp. eapply Rlt_trans; [apply log10_raster|]. lra.
Qed.
Theorem round125_idempotent v : round125 (round125 v) = round125 v.
Proof.
  rewrite (round125_raster v). pose proof (raster_pos (index v)) as P.
  assert (round125 (raster (index v)) = raster (index v)) as F.
  { rewrite round125_raster, index_raster by apply index_ge. unfold signR.
    destruct (Rlt_dec (raster (index v)) 0); [lra|]. destruct (Rlt_dec 0 (raster (index v))); lra. }
  unfold signR. destruct (Rlt_dec v 0); [|destruct (Rlt_dec 0 v)].
  - replace (-1 * raster (index v)) with (- raster (index v)) by ring. rewrite round125_odd, F. ring.
  - rewrite Rmult_1_l. exact F.
  - rewrite Rmult_0_l. apply round125_zero.
Qed.

(** The result is within a factor 8/5 of the value. *)
Theorem round125_near v : / 10 ^ 10 <= Rabs v -> Rabs v <= 8 / 5 * Rabs (round125 v) /\ Rabs (round125 v) <= 8 / 5 * Rabs v.
Proof.
  intros H. assert (0 < / 10 ^ 10) as T by (apply Rinv_0_lt_compat; lra).
  assert (Rabs (round125 v) = raster (index v)) as ->.
  { rewrite round125_raster, Rabs_mult. rewrite (Rabs_pos_eq (raster _)) by (left; apply raster_pos). unfold signR.
    destruct (Rlt_dec v 0); [rewrite Rabs_left by lra; ring|]. destruct (Rlt_dec 0 v); [rewrite Rabs_pos_eq by lra; ring|].
    assert (v = 0) as -> by lra. rewrite Rabs_R0 in H. lra. }
  pose proof (raster_pos (index v)) as P.
  assert (0 < Rabs v) as Pv by lra.
  pose proof (log10_raster (index v)) as L.
  pose proof (Znearest_half (fun x => negb (Z.even x)) (3 * log10 (Rabs v))) as N.
  assert (index v = ZnearestE (3 * log10 (Rabs v))) as E by (unfold index; rewrite Rmax_left by assumption; reflexivity).
  rewrite <- E in N. apply Rabs_def2 in L. apply Rabs_le_inv in N.
  (* 6/10 < 3 log10 (8/5): 10^6 < (8/5)^30 *)
  assert (30 * log10 (8 / 5) = log10 ((8 / 5) ^ 30)) as E8 by (unfold log10; rewrite ln_pow by lra; simpl; pose proof ln10_pos; field; lra).
  assert (log10 (10 ^ 6) = 6) as E5 by (rewrite <- pow10_nat, log10_pow10; simpl; lra).
  assert (log10 (10 ^ 6) < log10 ((8 / 5) ^ 30)) by (apply log10_lt1; lra).
  split; apply log10_le2; try lra; rewrite log10_mult by lra; lra.
Qed.
Theorem round125_tiny v : 0 < v < / 10 ^ 10 -> round125 v = / 10 ^ 10.
Proof.
  intros H. rewrite round125_raster. assert (index v = -30)%Z as ->.
  { unfold index. rewrite Rabs_pos_eq, Rmax_right by lra. rewrite <- pow10_m10, log10_pow10. replace (3 * -10) with (IZR (-30)) by (simpl; lra).
    apply (@Zrnd_IZR ZnearestE (valid_rnd_N _)). }
  rewrite raster_m30. unfold signR. destruct (Rlt_dec v 0); [lra|]. destruct (Rlt_dec 0 v); lra.
Qed.
Lemma tenth10 : / 10 ^ 10 < 1.
Proof. assert (1 < 10 ^ 10) by lra. apply Rmult_lt_reg_r with (10 ^ 10); [lra|]. rewrite Rinv_l by lra. lra. Qed.
Theorem round125_not_nearest : round125 (33 / 10) = 5 /\ Rabs (33 / 10 - 2) < Rabs (33 / 10 - 5) /\ round125 2 = 2.
Proof.
  pose proof tenth10. split; [|split].
  - rewrite round125_raster. assert (index (33 / 10) = 2%Z) as ->.
    { unfold index. rewrite Rabs_pos_eq, Rmax_left by lra. apply Znearest_imp.
      assert (6 * log10 (33 / 10) = log10 ((33 / 10) ^ 6)) as E by (unfold log10; rewrite ln_pow by lra; simpl; pose proof ln10_pos; field; lra).
      assert (log10 (10 ^ 3) = 3) as E3 by (rewrite <- pow10_nat, log10_pow10; simpl; lra).
      assert (log10 (10 ^ 5) = 5) as E5 by (rewrite <- pow10_nat, log10_pow10; simpl; lra).
      assert (log10 (10 ^ 3) < log10 ((33 / 10) ^ 6)) by (apply log10_lt1; lra).
      assert (log10 ((33 / 10) ^ 6) < log10 (10 ^ 5)) by (apply log10_lt1; lra).
      apply Rabs_def1; lra. }
    unfold raster. change (2 mod 3)%Z with 2%Z. change (2 / 3)%Z with 0%Z. rewrite pow10_0. unfold digit. cbn [Z.eqb Pos.eqb].
    unfold signR. destruct (Rlt_dec _ 0); [lra|]. destruct (Rlt_dec 0 _); lra.
  - rewrite Rabs_pos_eq, Rabs_left by lra. lra.
  - replace 2 with (raster 1) at 1 by (unfold raster; change (1 mod 3)%Z with 1%Z; change (1 / 3)%Z with 0%Z; rewrite pow10_0; unfold digit; cbn [Z.eqb Pos.eqb]; lra).
    rewrite round125_raster, index_raster by lia. unfold raster; change (1 mod 3)%Z with 1%Z; change (1 / 3)%Z with 0%Z; rewrite pow10_0; unfold digit; cbn [Z.eqb Pos.eqb].
    unfold signR. destruct (Rlt_dec _ 0); [lra|]. destruct (Rlt_dec 0 _); lra.
Qed.
