(** Media with gain. *)
From Coq Require Import Reals Lra Lia List Arith Bool.
Require Import Verif.Base Verif.Cplx Verif.CSum Verif.Field Verif.Fourier_Model Verif.Fourier_Spec Verif.Fourier_Proofs Verif.Display_Model.
Require Import Verif.Modes_Model Verif.Roots_Model Verif.Eigen_Bound.
Require Import Verif.Vec_Model Verif.Vec_Spec Verif.Vec_Proofs Verif.Solver_Model Verif.Solver_Spec Verif.Solver_Proofs.
Require Import Verif.Solver_Convergence Verif.Solver_Limit Verif.Solver_Choice Verif.Choice_Model Verif.Choice_Proofs Verif.Choice_Construct.
Import ListNotations.
Local Open Scope R_scope.
Local Open Scope C_scope.

Lemma absorbs_weaken n s t l l' : (l' <= l)%R -> absorbs n s t l -> absorbs n s t l'.
Proof.
  intros H A p u Hp. eapply Rle_trans; [|exact (A p u Hp)]. apply Rmult_le_compat_r; [|exact H]. apply rsum_nonneg. intros i _. pose proof (Cmod_ge_0 (u i)). nra.
Qed.
Lemma no_warning eps s epsilon xi zeta mu : warns eps s epsilon xi zeta mu = false -> transposes eps s epsilon xi zeta mu = false -> some_gain eps s epsilon xi zeta mu = false.
Proof. unfold warns. intros W T. rewrite T in W. exact W. Qed.
Lemma unflagged_small eps s v epsilon xi zeta mu : (0 < eps)%R -> (2 * eps <= 1)%R ->
  warns eps s epsilon xi zeta mu = false -> transposes eps s epsilon xi zeta mu = false ->
  forall t, In t [epsilon; xi; zeta; mu] -> fits v t -> absorbs (if v then 3 else 1) s t (- (3 * sqrt eps)).
Proof.
  intros He H1 W T t Ht Hf. pose proof (no_warning _ _ _ _ _ _ W T) as G. unfold some_gain in G. rewrite !orb_false_iff in G. destruct G as [[[G1 G2] G3] G4].
  apply (gain_bounded eps He H1 v s t Hf). destruct Ht as [<-|[<-|[<-|[<-|[]]]]]; assumption.
Qed.
Lemma gain_is_flagged eps s v epsilon xi zeta mu : (0 < eps)%R -> (2 * eps <= 1)%R ->
  (exists t, In t [epsilon; xi; zeta; mu] /\ fits v t /\ ~ absorbs (if v then 3 else 1) s t (- (3 * sqrt eps))) ->
  warns eps s epsilon xi zeta mu = true \/ transposes eps s epsilon xi zeta mu = true.
Proof.
  intros He H1 (t & Ht & Hf & Na). destruct (warns eps s epsilon xi zeta mu) eqn:W; [left; reflexivity|]. right. destruct (transposes eps s epsilon xi zeta mu) eqn:T; [reflexivity|].
  exfalso. apply Na. exact (unflagged_small eps s v epsilon xi zeta mu He H1 W T t Ht Hf).
Qed.

Lemma beta_uniform s m : (0 < m)%R -> fst (first s (tinv (tuniform (RtoC m)))) = (/ m)%R.
Proof. intros Hm. unfold first, tuniform, tinv, elements. cbn [hd]. rewrite <- RtoC_div by lra. cbn. field. lra. Qed.
Lemma gain_only_alpha eps g k0 v epsilon m settled S : (0 < m)%R -> transposes eps (rshape g) epsilon tzero tzero (tuniform (RtoC m)) = true ->
  let mu := tuniform (RtoC m) in
  let o := construct eps g k0 v epsilon tzero tzero mu settled None S in
  warns eps (rshape g) epsilon tzero tzero mu = false /\ (- snd (o_alpha o) = sigma_EE eps (rshape g) epsilon (fst settled) (/ m) - 5 / 100)%R.
Proof.
  intros Hm T mu o. split; [unfold warns, mu; rewrite T; reflexivity|]. unfold o, construct, choose, mu. rewrite not_magnetic, effective_nonmagnetic, T, (beta_uniform _ m Hm).
  cbn [o_alpha prepare precondition update_operators snd increased_bias]. ring.
Qed.

(** ** A single point *)
Definition point : raster := {| rshape := [1%nat]; rstep := [1%R] |}.
Lemma point_inside p : inside (rshape point) p -> p = [0%nat].
Proof. intros H. inversion H as [|m i s p' Hi Hp]; subst. inversion Hp; subst. f_equal. lia. Qed.
Lemma gain_uniform eps s (a : C) : (forall n, In n s -> (0 < n)%nat) -> (snd a < - sqrt eps)%R -> has_gain eps s (tuniform a) = true.
Proof.
  intros Hs H. apply any_over_spec. exists (map (fun _ => 0%nat) s). split.
  - clear H. induction s as [|n s IH]; constructor; [apply Hs; left; reflexivity|]. apply IH. intros k Hk. apply Hs. right. exact Hk.
  - unfold tuniform. rewrite antihermitian_scalar. cbn [existsb fst RtoC]. unfold Rltb, max_allowed_gain. destruct (Rlt_dec _ _); [reflexivity|contradiction].
Qed.
Lemma no_gain_uniform eps s (a : C) : (0 < eps)%R -> (2 * eps <= 1)%R -> (0 <= snd a)%R -> has_gain eps s (tuniform a) = false.
Proof. intros He H1 H. apply (no_gain_found eps He H1 true s (tuniform a) I). apply absorbs_uniform. exact H. Qed.
Lemma transposes_point eps b : (0 < eps)%R -> (10000 * eps < 1)%R -> (1 / 20 <= b)%R -> transposes eps (rshape point) (tuniform (1, - b)%R) tzero tzero (tuniform 1) = true.
Proof.
  intros He Hs Hb. assert (Hq : (sqrt eps < 1 / 100)%R).
  { rewrite <- (sqrt_square (1 / 100)) by lra. apply sqrt_lt_1_alt. lra. }
  unfold transposes, some_gain, some_loss, has_loss. rewrite gain_uniform; [|intros n [<-|[]]; lia|cbn; lra]. cbn [orb].
  assert (T : forall a, tscale (- (1)) (tuniform a) = tuniform (- (1) * a)) by reflexivity. change tzero with (tuniform (RtoC 0)). rewrite !T.
  rewrite !no_gain_uniform; try lra; try reflexivity; cbn; lra.
Qed.
Lemma sigma_point eps b : (0 <= b)%R -> sigma_EE eps (rshape point) (tuniform (1, - b)%R) 1 (/ 1) = b.
Proof.
  intros Hb. unfold sigma_EE. rewrite Rinv_1, Rabs_R1. unfold Rdiv. rewrite Rinv_1, Rmult_1_r. rewrite <- (sqrt_square b) at 2 by exact Hb. f_equal.
  unfold largest_eigenvalue. cbn [rshape point rmax_over rmax]. unfold delta_tensor, tuniform. cbv zeta. cbn [tscale tadjoint tadd tsub tmul]. rewrite eigenvalues_scalar. cbn [map fold_right].
  assert (E : Cmod (RtoC (Cmod (RtoC (1 * 1)) * Cmod (RtoC (1 * 1))) - (RtoC (1 * 1) * Cconj (1, (- b)%R) + Cconj (RtoC (1 * 1)) * (1, (- b)%R)) + Cconj (1, (- b)%R) * (1, (- b)%R)) = (b * b)%R).
  { replace (_ - _ + _) with (RtoC (b * b)); [rewrite Cmod_R; apply Rabs_pos_eq; nra|]. rewrite Rmult_1_r, Cmod_1. unfold Cconj. apply injective_projections; cbn; ring. }
  rewrite E. rewrite (Rmax_left (b * b) 0), !Rmax_right by (try apply Rmax_l; nra). reflexivity.
Qed.
Lemma gain_only_real_alpha eps : (0 < eps)%R -> (10000 * eps < 1)%R ->
  let o := construct eps point 1 false (tuniform (1, - (1 / 20))%R) tzero tzero (tuniform 1) (1, 1)%R None (fun _ _ => 0) in
  warns eps (rshape point) (tuniform (1, - (1 / 20))%R) tzero tzero (tuniform 1) = false /\ snd (o_alpha o) = 0%R.
Proof.
  intros He Hs o. pose proof (transposes_point eps (1 / 20) He Hs (Rle_refl _)) as T.
  destruct (gain_only_alpha eps point 1 false (tuniform (1, - (1 / 20))%R) 1 (1, 1)%R (fun _ _ => 0) Rlt_0_1 T) as [W A]. split; [exact W|].
  cbn [fst] in A. rewrite sigma_point in A by lra. fold o in A. lra.
Qed.

Lemma sum_point (f : sfield) : sum_over [1%nat] f = f [0%nat].
Proof. cbn. ring. Qed.
Lemma cis_0 : cis 0 = 1.
Proof. unfold cis. rewrite cos_0, sin_0. reflexivity. Qed.
Lemma phase_point : phase [1%nat] [0%nat] [0%nat] = 0%R.
Proof. cbn. field. Qed.
Lemma convolve_point op F c : (forall G, op G c [0%nat] = op (fun c _ => G c [0%nat]) c [0%nat]) -> convolve [1%nat] op F c [0%nat] = op (fun c _ => F c [0%nat]) c [0%nat].
Proof.
  intros H. unfold convolve, vift, ift. rewrite sum_point, phase_point, cis_0. rewrite H.
  replace (fun c0 _ => vft [1%nat] F c0 [0%nat]) with (fun (c0 : nat) (_ : list nat) => F c0 [0%nat]).
  - replace (RtoC (INR (points [1%nat]))) with (RtoC 1) by reflexivity. field. apply RtoC_neq; lra.
  - apply FunctionalExtensionality.functional_extensionality. intros c0. apply FunctionalExtensionality.functional_extensionality. intros q. unfold vft, ft.
    rewrite sum_point, phase_point, Ropp_0, cis_0. ring.
Qed.
Definition gain_alpha : C := (1, - (1 / 20))%R.
Definition gain_o (eps : R) : ops := prepare (scaled 1 point) false false gain_alpha (/ 1) (tuniform (1, - (1 / 10))%R) tzero tzero (tuniform 1) (fun _ _ => 0).
Lemma gain_construct eps : (0 < eps)%R -> (10000 * eps < 1)%R ->
  construct eps point 1 false (tuniform (1, - (1 / 10))%R) tzero tzero (tuniform 1) (1, 1)%R None (fun _ _ => 0) = gain_o eps.
Proof.
  intros He Hs. unfold construct, choose. change (tuniform 1) with (tuniform (RtoC 1)).
  rewrite not_magnetic, effective_nonmagnetic, (beta_uniform _ 1 Rlt_0_1), (transposes_point eps (1 / 10) He Hs) by lra. cbn [fst]. rewrite sigma_point by lra.
  cbn [increased_bias snd]. unfold gain_o, gain_alpha. replace (- (1 / 10) + 5 / 100)%R with (- (1 / 20))%R by lra. reflexivity.
Qed.
Definition gain_G : C := (1 / 401, - (20 / 401))%R.
Lemma gain_chi eps F c p : chi_op (gain_o eps) F c p = - F c p.
Proof.
  unfold gain_o, gain_alpha. cbn -[Rinv Rdiv Cmult Cplus Cdiv Copp Cminus]. destruct (F c p) as [x y]. unfold Ci, im, RtoC. apply injective_projections; cbn; field.
Qed.
Lemma gain_update eps F c : update (gain_o eps) F c [0%nat] = (1 + gain_G) * F c [0%nat].
Proof.
  unfold update. rewrite gain_chi. unfold green_op. change (rshape (o_grid (gain_o eps))) with [1%nat].
  rewrite convolve_point by (intros G; reflexivity). cbn beta. unfold g_ft_op. change (o_vectorial (gain_o eps)) with false. cbv iota. rewrite gain_chi.
  assert (E : g_scalar (gain_o eps) [0%nat] = gain_G).
  { unfold g_scalar. change (o_alpha (gain_o eps)) with gain_alpha. change (o_grid (gain_o eps)) with (scaled 1 point).
    assert (K : k2 (scaled 1 point) [0%nat] = 0%R) by (unfold k2, kvec, k_axis; cbn; field). rewrite K. unfold gain_alpha, gain_G, im, Ci. apply injective_projections; cbn; field. }
  rewrite E. assert (Es : o_source (gain_o eps) c [0%nat] = 0). { unfold gain_o. cbn -[Rinv Rdiv Cmult Cplus Cdiv Copp Cminus]. ring. }
  rewrite Es. ring.
Qed.
Lemma vnorm2_point F : vnorm2 1 [1%nat] F = (Cmod (F 0%nat [0%nat]) * Cmod (F 0%nat [0%nat]))%R.
Proof. unfold vnorm2. cbn. ring. Qed.
Lemma gain_only_grows eps : (0 < eps)%R -> (10000 * eps < 1)%R ->
  let o := construct eps point 1 false (tuniform (1, - (1 / 10))%R) tzero tzero (tuniform 1) (1, 1)%R None (fun _ _ => 0) in
  transposes eps (rshape point) (tuniform (1, - (1 / 10))%R) tzero tzero (tuniform 1) = true /\
  warns eps (rshape point) (tuniform (1, - (1 / 10))%R) tzero tzero (tuniform 1) = false /\
  forall F, (3 * vnorm2 1 (rshape point) (update o F) <= vnorm2 1 (rshape point) (update o (next_field o F)))%R.
Proof.
  intros He Hs o. assert (T : transposes eps (rshape point) (tuniform (1, - (1 / 10))%R) tzero tzero (tuniform 1) = true) by (apply transposes_point; lra).
  split; [exact T|]. split; [unfold warns; rewrite T; reflexivity|]. intros F. unfold o. rewrite (gain_construct eps He Hs). change (rshape point) with [1%nat]. rewrite !vnorm2_point, !gain_update.
  unfold next_field. rewrite gain_update. set (z := F 0%nat [0%nat]).
  replace (Cmult (1 + gain_G) (z + (1 + gain_G) * z))%C with ((1 + (1 + gain_G)) * ((1 + gain_G) * z))%C by ring. set (y := ((1 + gain_G) * z)%C). rewrite (Cmod_mult (1 + (1 + gain_G)) y).
  assert (B : (3 <= Cmod (1 + (1 + gain_G))%C * Cmod (1 + (1 + gain_G))%C)%R) by (rewrite Cmod_sq; unfold gain_G; cbn; nra).
  set (k := Cmod (1 + (1 + gain_G))%C) in *. pose proof (Cmod_ge_0 y). nra.
Qed.
