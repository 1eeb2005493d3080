(** The registration minimises the difference with the reference. *)
From Coq Require Import Reals List Arith Bool ZArith Lia Lra.
From Flocq Require Import Core.
Require Import Verif.Base Verif.CSum Verif.Field Verif.Fourier_Model Verif.Fourier_Spec Verif.Fourier_Proofs Verif.Vec_Model Verif.Modes_Model Verif.Modes_Proofs.
Require Import Verif.Shift_Model Verif.Shift_Spec Verif.Shift_Proofs Verif.Shift_Moves Verif.Register_Model Verif.Register_Spec Verif.Cplx.
Import ListNotations.
Local Open Scope R_scope.
Local Open Scope C_scope.

(** ** The value at position t of the function with spectrum X *)
Definition val (s : list nat) (X : sfield) (t : list R) : C := sum_over s (fun q => X q * cis (angle s q t)) / RtoC (INR (points s)).
Lemma angle_back s : forall q t, angle s q (back t) = (- angle s q t)%R.
Proof.
  induction s as [|n s IH]; intros [|i q] [|d t]; cbn [angle back map]; try ring. fold (back t). rewrite IH. unfold Rdiv. ring.
Qed.
Lemma norm2_mean s f : nonempty s -> mean2 s (ft s f) = norm2 s f.
Proof. intros S. unfold mean2. rewrite ft_norm2 by exact S. field. pose proof (points_pos s S) as P. apply lt_0_INR in P. lra. Qed.
Lemma lit_pos s f : lit s f -> (0 < norm2 s f)%R.
Proof. intros (p & Hp & H). destruct (Rle_lt_or_eq_dec _ _ (norm2_nonneg s f)) as [L|E]; [exact L|]. exfalso. apply H. apply (norm2_zero s f); [symmetry; exact E|exact Hp]. Qed.
Lemma lit_nonempty s f : lit s f -> nonempty s.
Proof. intros (p & Hp & _). apply (inside_nonempty _ _ Hp). Qed.
(** The cross correlation. *)
Lemma cross_val s r f t : lit s r -> length t = length s ->
  val s (cross_ft s (ft s r) (ft s f)) t = ip s r (moved s (back t) f) / RtoC (sqrt (norm2 s r)).
Proof.
  intros L T. pose proof (lit_nonempty _ _ L) as S. pose proof (lit_pos _ _ L) as P. pose proof (points_neq_0 s S) as N.
  assert (RtoC (sqrt (norm2 s r)) <> 0) as Q. { intros H. apply RtoC_inj in H. pose proof (sqrt_lt_R0 _ P). lra. }
  unfold val, cross_ft, reference_conj, reference_norm. rewrite norm2_mean by exact S.
  transitivity (ip s (ft s r) (ft s (moved s (back t) f)) / RtoC (sqrt (norm2 s r)) / RtoC (INR (points s))).
  - unfold ip, Cdiv. f_equal. rewrite <- sum_over_scal_r. apply sum_over_ext. intros q Hq. rewrite ft_moved by (exact Hq || (rewrite back_length; exact T)). rewrite angle_back, Ropp_involutive. ring.
  - rewrite ft_ip by exact S. field. split; assumption.
Qed.
Lemma cis_angle_place s : forall q x y, nonempty s -> same_place s x y -> cis (angle s q x) = cis (angle s q y).
Proof.
  induction s as [|n s IH]; intros [|i q] [|u x] [|v y] S H; cbn in H; try contradiction; try reflexivity. destruct H as [(c & ->) H]. inversion S; subst. cbn [angle]. rewrite !cis_plus, (IH q x y) by assumption. f_equal.
  assert (0 < INR n)%R by (apply lt_0_INR; assumption). replace (2 * PI * IZR (k_index n i) * (v + IZR c * INR n) / INR n)%R with (2 * PI * IZR (k_index n i) * v / INR n + 2 * PI * IZR (k_index n i * c))%R by (rewrite mult_IZR; field; lra).
  rewrite cis_plus, cis_2PI_Z. ring.
Qed.
Lemma val_place s X x y : nonempty s -> same_place s x y -> val s X x = val s X y.
Proof. intros S H. unfold val. f_equal. apply sum_over_ext. intros q _. rewrite (cis_angle_place s q x y S H). reflexivity. Qed.
Lemma same_place_length s : forall x y, same_place s x y -> length x = length s /\ length y = length s.
Proof. induction s as [|n s IH]; intros [|u x] [|v y] H; cbn in *; try contradiction; auto. destruct H as [_ H]. apply IH in H. lia. Qed.

(** ** Projection on a line *)
Lemma misfit_expand s r f t a : lit s r -> length t = length s ->
  misfit s r f t a = (norm2 s r + Cmod a * Cmod a * norm2 s f - 2 * fst (a * ip s r (moved s (back t) f))%C)%R.
Proof.
  intros L T. pose proof (lit_nonempty _ _ L) as S. unfold misfit. rewrite (norm2_ext s _ (fun p => a * moved s (back t) f p + - (1) * r p)) by (intros p _; ring).
  rewrite norm2_expand, !norm2_scal, moved_norm2 by (exact S || (rewrite back_length; exact T)).
  rewrite ip_scal_l, ip_scal_r. rewrite Cmod_opp, Cmod_1. rewrite <- (ip_conj s r). generalize (ip s r (moved s (back t) f)). intros [x y]. destruct a as [u v]. cbn. ring.
Qed.
(** The best factor, and the difference that remains. *)
Lemma misfit_least s r f t a : lit s r -> lit s f -> length t = length s ->
  let c := ip s r (moved s (back t) f) in (norm2 s r - Cmod c * Cmod c / norm2 s f <= misfit s r f t a)%R.
Proof.
  intros Lr Lf T c. rewrite misfit_expand by assumption. fold c. pose proof (lit_pos _ _ Lf) as P.
  assert (fst (a * c)%C <= Cmod a * Cmod c)%R as B. { rewrite <- Cmod_mult. pose proof (Cmod_Re_le (a * c)). pose proof (Rle_abs (fst (a * c)%C)). lra. }
  enough (0 <= Cmod a * Cmod a * norm2 s f - 2 * (Cmod a * Cmod c) + Cmod c * Cmod c / norm2 s f)%R by lra.
  replace (Cmod a * Cmod a * norm2 s f - 2 * (Cmod a * Cmod c) + Cmod c * Cmod c / norm2 s f)%R with ((Cmod a * norm2 s f - Cmod c) * (Cmod a * norm2 s f - Cmod c) / norm2 s f)%R by (field; lra).
  apply Rmult_le_pos; [apply Rle_0_sqr|]. left. apply Rinv_0_lt_compat, P.
Qed.
Lemma misfit_best s r f t : lit s r -> lit s f -> length t = length s ->
  let c := ip s r (moved s (back t) f) in misfit s r f t (Cconj c / RtoC (norm2 s f)) = (norm2 s r - Cmod c * Cmod c / norm2 s f)%R.
Proof.
  intros Lr Lf T c. rewrite misfit_expand by assumption. fold c. pose proof (lit_pos _ _ Lf) as P. assert (RtoC (norm2 s f) <> 0) as N by (intros H; apply RtoC_inj in H; lra).
  replace (Cconj c / RtoC (norm2 s f) * c) with (RtoC (Cmod c * Cmod c / norm2 s f)).
  - rewrite Cmod_div, Cmod_conj, Cmod_R by exact N. rewrite Rabs_pos_eq by lra. cbn [fst RtoC]. field. lra.
  - rewrite RtoC_div, <- Cmult_conj by lra. field. exact N.
Qed.
(** What register reports for a shift. *)
Section Report.
  Variables (s : list nat) (r f : sfield) (t : list R).
  Hypotheses (Lr : lit s r) (Lf : lit s f) (T : length t = length s).
  Let X := cross_ft s (ft s r) (ft s f).
  Let c := ip s r (moved s (back t) f).
  Lemma peak_mod : Cmod (val s X t) = (Cmod c / sqrt (norm2 s r))%R.
  Proof.
    unfold X. rewrite cross_val by assumption. pose proof (sqrt_lt_R0 _ (lit_pos _ _ Lr)) as P. rewrite Cmod_div, Cmod_R, Rabs_pos_eq; [reflexivity|lra|]. intros H. apply RtoC_inj in H. lra.
  Qed.
  Lemma peak_bound : (Cmod (val s X t) / sqrt (mean2 s (ft s f)) <= 1)%R.
  Proof.
    rewrite norm2_mean by apply (lit_nonempty _ _ Lr). rewrite peak_mod. pose proof (sqrt_lt_R0 _ (lit_pos _ _ Lr)) as P. pose proof (sqrt_lt_R0 _ (lit_pos _ _ Lf)) as P'.
    assert (Cmod c <= sqrt (norm2 s r) * sqrt (norm2 s f))%R as B.
    { rewrite <- sqrt_mult by apply norm2_nonneg. rewrite <- (sqrt_square (Cmod c)) by apply Cmod_ge_0. apply sqrt_le_1_alt. unfold c. eapply Rle_trans; [apply cauchy_schwarz|].
      rewrite moved_norm2; [lra|apply (lit_nonempty _ _ Lr)|rewrite back_length; exact T]. }
    unfold Rdiv. rewrite Rmult_assoc, <- Rinv_mult_distr by lra. apply (Rmult_le_reg_r (sqrt (norm2 s r) * sqrt (norm2 s f))%R); [apply Rmult_lt_0_compat; assumption|].
    rewrite Rmult_assoc, Rinv_l by (apply Rgt_not_eq, Rmult_lt_0_compat; assumption). lra.
  Qed.
  (** The error is the relative difference. *)
  Lemma report_error : let e := sqrt (1 - Rmin 1 (Rabs (Cmod (val s X t) / sqrt (mean2 s (ft s f)))) * Rmin 1 (Rabs (Cmod (val s X t) / sqrt (mean2 s (ft s f))))) in
    (0 <= e <= 1)%R /\ (e * e * norm2 s r = norm2 s r - Cmod c * Cmod c / norm2 s f)%R.
  Proof.
    intros e. pose proof peak_bound as B. pose proof (sqrt_lt_R0 _ (lit_pos _ _ Lr)) as P. pose proof (sqrt_lt_R0 _ (lit_pos _ _ Lf)) as P'. pose proof (lit_nonempty _ _ Lr) as S.
    assert (0 <= Cmod (val s X t) / sqrt (mean2 s (ft s f)))%R as B0 by (rewrite norm2_mean by exact S; apply Rmult_le_pos; [apply Cmod_ge_0|left; apply Rinv_0_lt_compat, P']).
    unfold e. rewrite Rabs_pos_eq, Rmin_right by assumption. set (x := (Cmod (val s X t) / sqrt (mean2 s (ft s f)))%R) in *. clearbody e. split.
    - split; [apply sqrt_pos|]. apply Rle_trans with (sqrt 1); [apply sqrt_le_1_alt; nra|rewrite sqrt_1; lra].
    - rewrite sqrt_sqrt by nra. unfold x. rewrite norm2_mean by exact S. rewrite peak_mod.
      pose proof (sqrt_sqrt _ (norm2_nonneg s r)) as E. pose proof (sqrt_sqrt _ (norm2_nonneg s f)) as E'. revert E E' P P'. generalize (sqrt (norm2 s r)), (sqrt (norm2 s f)). intros a b <- <- Pa Pb. field. lra.
  Qed.
  (** The inverse of the factor is the best one. *)
  Lemma report_factor : (0 < Cmod (val s X t))%R -> / (RtoC (mean2 s (ft s f)) / (Cconj (val s X t) * RtoC (reference_norm s (ft s r)))) = Cconj c / RtoC (norm2 s f).
  Proof.
    intros Z. pose proof (lit_nonempty _ _ Lr) as S. unfold reference_norm. rewrite !norm2_mean by exact S. unfold X in *. rewrite cross_val in * by assumption. fold c in Z |- *.
    pose proof (sqrt_lt_R0 _ (lit_pos _ _ Lr)) as P. pose proof (lit_pos _ _ Lf) as P'.
    assert (RtoC (sqrt (norm2 s r)) <> 0) as N by (intros H; apply RtoC_inj in H; lra). assert (RtoC (norm2 s f) <> 0) as N' by (intros H; apply RtoC_inj in H; lra).
    rewrite Cmod_div in Z by exact N. assert (c <> 0) as N2. { intros H. rewrite H, Cmod_0 in Z. unfold Rdiv in Z. rewrite Rmult_0_l in Z. lra. }
    assert (Cconj c <> 0) as N3. { intros H. apply N2. rewrite <- (Cconj_conj c), H. apply Cconj_R. }
    rewrite Cconj_div, Cconj_R. field. repeat split; assumption.
  Qed.
End Report.
