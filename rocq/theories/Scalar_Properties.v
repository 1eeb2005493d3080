(** C177: the permeability in scalar calculations. *)
From Coq Require Import Reals Lra Lia List Arith Bool.
From Coquelicot Require Import Coquelicot.
Require Import Verif.Base Verif.Cplx Verif.CSum Verif.Field Verif.Fourier_Model Verif.Fourier_Spec Verif.Fourier_Proofs Verif.Display_Model Verif.Modes_Model.
Require Import Verif.Vec_Model Verif.Vec_Spec Verif.Solver_Model Verif.Solver_Spec Verif.Solver_Choice Verif.Choice_Model Verif.Choice_Proofs.
Require Import Verif.Symmetry_Spec Verif.Symmetry_Limit Verif.Scalar_Proofs.
Import ListNotations.
Local Open Scope R_scope.
Local Open Scope C_scope.

(** C177 (part): with a uniform permeability m the iteration converges to E exactly if E is the solution for m. *)
Theorem scalar_uniform_partial : forall eps g k0 e (m : R) settled kappa S loss E,
  (0 < eps)%R -> (2 * eps <= 1)%R -> (0 < m)%R -> (800 * sqrt eps * (m * m) < 1)%R -> solvable false g k0 ->
  (0 < loss)%R -> absorbs 1 (rshape g) (TScalar e) loss ->
  computes 1 (rshape g) k0 (construct eps g k0 false (TScalar e) tzero tzero (tuniform (RtoC m)) settled kappa S) E
  <-> wave_equation false g k0 (/ m) (TScalar e) E S.
Proof.
  intros eps g k0 e m settled kappa S loss E He H1 Hm Hq Hs Hl Ha.
  exact (computes_wave eps g k0 false (TScalar e) m settled kappa S loss He H1 Hm Hq Hs I Hl Ha E).
Qed.
Print Assumptions scalar_uniform_partial.

(** C177, refuted: with a permeability h that varies, the iteration converges to the solution for a uniform permeability,
    of which the inverse is the square of the number on which the optimisation settled; it does not depend on h. *)
Theorem scalar_permeability_refuted : forall eps g k0 e h settled kappa S loss E,
  (0 < k0)%R -> solvable false g k0 -> snd settled <> 0%R -> is_magnetic (rshape g) tzero tzero (TScalar h) = true ->
  (0 < loss)%R -> absorbs 1 (rshape g) (TScalar e) loss ->
  computes 1 (rshape g) k0 (construct eps g k0 false (TScalar e) tzero tzero (TScalar h) settled kappa S) E
  <-> wave_equation false g k0 (snd settled * snd settled) (TScalar e) E S.
Proof. exact scalar_ignores. Qed.
Print Assumptions scalar_permeability_refuted.

(** C177, refuted: hence there are sources for which the result depends on where the optimisation stops. *)
Theorem scalar_unsettled_refuted : forall eps g k0 e h settled settled' kappa loss m,
  (0 < k0)%R -> solvable false g k0 -> snd settled <> 0%R -> snd settled' <> 0%R ->
  (snd settled * snd settled <> snd settled' * snd settled')%R ->
  is_magnetic (rshape g) tzero tzero (TScalar h) = true -> (0 < loss)%R -> absorbs 1 (rshape g) (TScalar e) loss ->
  inside (rshape g) m -> k2 g m <> 0%R ->
  exists S E E', computes 1 (rshape g) k0 (construct eps g k0 false (TScalar e) tzero tzero (TScalar h) settled kappa S) E
    /\ computes 1 (rshape g) k0 (construct eps g k0 false (TScalar e) tzero tzero (TScalar h) settled' kappa S) E'
    /\ ~ vagree 1 (rshape g) E E'.
Proof. exact scalar_unsettled. Qed.
Print Assumptions scalar_unsettled_refuted.

(** Four points in a lossy medium of which the permeability varies from 1 to 4. *)
Definition pair_grid : raster := {| rshape := [4]%nat; rstep := [1]%R |}.
Definition pair_mu : sfield := fun p => RtoC (1 + INR (hd 0%nat p)).
Definition pair_eps : sfield := fun _ => (1, 1)%R.
Example scalar_hypotheses :
  solvable false pair_grid 2 /\ is_magnetic (rshape pair_grid) tzero tzero (TScalar pair_mu) = true
  /\ absorbs 1 (rshape pair_grid) (TScalar pair_eps) 1 /\ inside (rshape pair_grid) [1%nat] /\ k2 pair_grid [1%nat] <> 0%R.
Proof.
  refine (conj _ (conj _ (conj _ (conj _ _)))).
  - repeat split; cbn; repeat constructor; try lra; try lia; discriminate.
  - unfold is_magnetic. apply negb_true_iff. apply andb_false_iff. right.
    unfold allclose, all_over. apply negb_false_iff. apply any_over_spec. exists [1%nat]. split; [repeat constructor|].
    apply negb_true_iff. cbn [elements forallb]. apply andb_false_iff. left. unfold close, Rleb.
    destruct (Rle_dec _ _) as [H|H]; [exfalso|reflexivity].
    cbn [first elements hd rshape pair_grid map] in H. unfold pair_mu in H. cbn [hd INR] in H.
    rewrite <- RtoC_minus, !Cmod_R in H. rewrite !Rabs_pos_eq in H by lra. lra.
  - apply absorbs_scalar. intros p _. cbn. lra.
  - repeat constructor.
  - unfold k2, kvec. cbn. unfold k_axis. cbn. pose proof PI_RGT_0. nra.
Qed.
