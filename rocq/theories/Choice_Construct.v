(** The operators of the constructor for non-magnetic media without gain. *)
From Coq Require Import Reals Lra Lia List Arith Bool FunctionalExtensionality.
Require Import Verif.Base Verif.Cplx Verif.CSum Verif.Field Verif.Fourier_Model Verif.Fourier_Spec Verif.Fourier_Proofs Verif.Display_Model.
Require Import Verif.Modes_Model Verif.Roots_Model Verif.Eigen_Bound.
Require Import Verif.Vec_Model Verif.Vec_Spec Verif.Vec_Proofs Verif.Solver_Model Verif.Solver_Spec Verif.Solver_Proofs.
Require Import Verif.Solver_Convergence Verif.Solver_Limit Verif.Solver_Choice Verif.Choice_Model Verif.Choice_Proofs.
Import ListNotations.
Local Open Scope R_scope.
Local Open Scope C_scope.

Lemma close_self x : close x x = true.
Proof.
  unfold close, Rleb. replace (x - x) with (RtoC 0) by ring. rewrite Cmod_0. pose proof (Cmod_ge_0 x). destruct (Rle_dec 0 (1 / 100000000 + 1 / 100000 * Cmod x)) as [H'|H']; [reflexivity|exfalso; apply H'; lra].
Qed.
Lemma allclose_uniform s a : allclose s (tuniform a) a = true.
Proof. apply all_over_spec. intros p _. cbn [elements tuniform forallb]. rewrite close_self. reflexivity. Qed.
Lemma not_magnetic s m : is_magnetic s tzero tzero (tuniform m) = false.
Proof.
  unfold is_magnetic. change tzero with (tuniform (RtoC 0)). rewrite (allclose_uniform s (RtoC 0)). change (first s (tuniform m)) with m. rewrite allclose_uniform. reflexivity.
Qed.
Lemma effective_nonmagnetic epsilon m : effective_epsilon epsilon tzero tzero (tuniform m) = epsilon.
Proof.
  unfold effective_epsilon, tzero, tuniform. destruct epsilon as [f|f]; cbn [tinv tmul tscale tsub]; f_equal.
  - apply functional_extensionality. intros p. ring.
  - apply functional_extensionality. intros i. apply functional_extensionality. intros j. apply functional_extensionality. intros p. ring.
Qed.
Lemma absorbs_uniform n s (a : C) : (0 <= snd a)%R -> absorbs n s (tuniform a) 0.
Proof. intros H. apply absorbs_scalar. intros p _. exact H. Qed.
Lemma no_some_gain eps s v epsilon m : (0 < eps)%R -> (2 * eps <= 1)%R -> fits v epsilon -> absorbs (if v then 3 else 1) s epsilon 0 ->
  some_gain eps s epsilon tzero tzero (tuniform (RtoC m)) = false.
Proof.
  intros He H1 Hf Ha. unfold some_gain. rewrite (no_gain_found eps He H1 v s epsilon Hf Ha).
  rewrite (no_gain_found eps He H1 true s tzero I (absorbs_uniform 3 s 0 (Rle_refl 0))), (no_gain_found eps He H1 true s (tuniform (RtoC m)) I (absorbs_uniform 3 s (RtoC m) (Rle_refl 0))). reflexivity.
Qed.
(** The alpha of the constructor exceeds the deviation of the medium. *)
Lemma construct_alpha eps g k0 v epsilon m settled kappa S : (0 < eps)%R -> (2 * eps <= 1)%R -> fits v epsilon -> absorbs (if v then 3 else 1) (rshape g) epsilon 0 -> (0 < m)%R ->
  (800 * sqrt eps * (m * m) < 1)%R ->
  exists alpha rho, construct eps g k0 v epsilon tzero tzero (tuniform (RtoC m)) settled kappa S = prepare (scaled k0 g) v false alpha (/ m) epsilon tzero tzero (tuniform (RtoC m)) S
    /\ (0 < snd alpha)%R /\ (0 <= rho < 1)%R /\ deviates (if v then 3 else 1) (rshape g) epsilon (/ m) (fst alpha) (rho * snd alpha).
Proof.
  intros He H1 Hf Ha Hm Hq. unfold construct, choose. rewrite not_magnetic, effective_nonmagnetic. unfold transposes. rewrite (no_some_gain eps (rshape g) v epsilon m He H1 Hf Ha). cbn [andb].
  assert (Eb : fst (first (rshape g) (tinv (tuniform (RtoC m)))) = (/ m)%R).
  { unfold first, tuniform, tinv, elements. cbn [hd]. rewrite <- RtoC_div by lra. cbn. field. lra. }
  rewrite Eb. set (sigma := sigma_EE eps (rshape g) epsilon (fst settled) (/ m)).
  assert (Hb : (0 < / m)%R) by (apply Rinv_0_lt_compat, Hm).
  assert (S0 : (0 <= sigma)%R) by (apply sigma_nonneg'; lra).
  set (ai := increased_bias (fst settled, sigma) kappa). pose proof (bias_ge (fst settled, sigma) kappa) as Hi. cbn [snd] in Hi. fold ai in Hi.
  pose proof (sqrt_lt_R0 eps He) as Hs.
  set (d2 := (sigma * sigma + 2 * sqrt eps / (/ m * / m))%R). assert (Ed : (2 * sqrt eps / (/ m * / m) = 2 * sqrt eps * (m * m))%R) by (field; lra).
  assert (Hd2 : (0 <= d2)%R) by (unfold d2; rewrite Ed; nra).
  assert (Hd : (sqrt d2 < sigma + 5 / 100)%R).
  { rewrite <- (sqrt_square (sigma + 5 / 100)) by lra. apply sqrt_lt_1_alt. split; [exact Hd2|]. unfold d2. rewrite Ed. nra. }
  pose proof (sqrt_pos d2) as Hd0.
  exists (fst settled, ai), (sqrt d2 / ai)%R. split; [reflexivity|]. cbn [fst snd]. assert (Hai : (0 < ai)%R) by lra. split; [exact Hai|]. split.
  - split; [apply Rmult_le_pos; [exact Hd0|left; apply Rinv_0_lt_compat, Hai]|]. apply Rmult_lt_reg_r with ai; [exact Hai|]. unfold Rdiv. rewrite Rmult_assoc, Rinv_l; lra.
  - replace (sqrt d2 / ai * ai)%R with (sqrt d2) by (field; lra). apply (sigma_EE_bounds eps He H1 v (rshape g) epsilon (fst settled) (/ m) (sqrt d2) Hf Hb Hd0).
    rewrite sqrt_sqrt by exact Hd2. apply Rle_refl.
Qed.
