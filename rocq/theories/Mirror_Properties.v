(** Mirror images and the order of the axes: C131 and C132. *)
From Coq Require Import Reals Lra Lia List Arith Bool.
Require Import Verif.Base Verif.Cplx Verif.CSum Verif.Field Verif.Fourier_Model Verif.Fourier_Spec Verif.Vec_Model Verif.Vec_Spec Verif.Solver_Model Verif.Solver_Spec Verif.Solver_Choice.
Require Import Verif.Choice_Model Verif.Symmetry_Spec Verif.Symmetry_Results Verif.Symmetry_Mirror Verif.Symmetry_Properties.
Import ListNotations.
Local Open Scope R_scope.
Local Open Scope C_scope.

(** C131: the mirror image of the problem has the mirror image of the solution.  Vector problems on grids of two and three dimensions only when the axis
    perpendicular to the mirror has an odd number of points (or is not an axis of the grid). *)
Theorem mirror_image_partial : forall eps g k0 v epsilon m loss settled settled' kappa kappa' axis S E, lossy_problem eps g k0 v epsilon m loss ->
  (v = true -> Nat.odd (nth axis (rshape g) 1%nat) = true \/ (rndim g <= 1)%nat) -> let n := (if v then 3 else 1)%nat in let s := rshape g in
  computes n s k0 (construct eps g k0 v epsilon tzero tzero (tuniform (RtoC m)) settled kappa S) E ->
  computes n s k0 (construct eps g k0 v (mirrored_tensor axis s epsilon) tzero tzero (tuniform (RtoC m)) settled' kappa' (mirrored v axis s S)) (mirrored v axis s E).
Proof. exact mirror_proof. Qed.
Print Assumptions mirror_image_partial.
(** C131: so a problem that is its own mirror image has a solution that is its own mirror image. *)
Theorem mirror_symmetric_partial : forall eps g k0 v epsilon m loss settled kappa axis S E, lossy_problem eps g k0 v epsilon m loss ->
  (v = true -> Nat.odd (nth axis (rshape g) 1%nat) = true \/ (rndim g <= 1)%nat) -> let n := (if v then 3 else 1)%nat in let s := rshape g in
  mirrored_tensor axis s epsilon = epsilon -> mirrored v axis s S = S ->
  computes n s k0 (construct eps g k0 v epsilon tzero tzero (tuniform (RtoC m)) settled kappa S) E -> vagree n s (mirrored v axis s E) E.
Proof. exact mirror_symmetric_proof. Qed.
Print Assumptions mirror_symmetric_partial.
Example mirror_hypotheses v : lossy_problem millionth three 2 v (TScalar layers) 1 (1 / 4) /\ (v = true -> Nat.odd (nth 0 (rshape three) 1%nat) = true \/ (rndim three <= 1)%nat) /\
  mirrored_tensor 0 (rshape three) (TScalar layers) <> TScalar layers /\ mirrored true 0 (rshape three) (fun _ _ => RtoC 1) <> (fun _ _ => RtoC 1).
Proof.
  split; [apply layers_lossy|]. split; [intros _; left; reflexivity|]. split.
  - intros H. cbn [mirrored_tensor] in H. injection H as H. pose proof (f_equal (fun f => fst (f [1]%nat)) H) as Q. cbn in Q. lra.
  - intros H. pose proof (f_equal (fun f => fst (f 0%nat [0]%nat)) H) as Q. cbn in Q. lra.
Qed.
(** C131: it fails for vector fields when the number of points along the axis is even, even in a uniform isotropic medium. *)
Theorem mirror_image_refuted : forall eps k0 (e : C) settled settled' kappa kappa', (0 < eps)%R -> (800 * sqrt eps < 1)%R -> k0 <> 0%R -> (0 < snd e)%R ->
  let g := {| rshape := [2; 3]%nat; rstep := [1; 1]%R |} in
  exists S E, computes 3 (rshape g) k0 (construct eps g k0 true (tuniform e) tzero tzero (tuniform 1) settled kappa S) E /\
    ~ computes 3 (rshape g) k0 (construct eps g k0 true (mirrored_tensor 0 (rshape g) (tuniform e)) tzero tzero (tuniform 1) settled' kappa' (mirrored true 0 (rshape g) S)) (mirrored true 0 (rshape g) E).
Proof. exact mirror_refuted_proof. Qed.
Print Assumptions mirror_image_refuted.

(** C132: exchanging two successive axes of the grid, the medium, and the source exchanges the axes of the solution, and its vector components. *)
Theorem order_of_axes : forall eps g k0 v epsilon m loss settled settled' kappa kappa' axis S E, lossy_problem eps g k0 v epsilon m loss -> (Datatypes.S axis < rndim g)%nat ->
  let n := (if v then 3 else 1)%nat in let g' := exchanged_grid axis g in
  computes n (rshape g) k0 (construct eps g k0 v epsilon tzero tzero (tuniform (RtoC m)) settled kappa S) E ->
  computes n (rshape g') k0 (construct eps g' k0 v (exchanged_tensor axis epsilon) tzero tzero (tuniform (RtoC m)) settled' kappa' (exchanged v axis S)) (exchanged v axis E).
Proof. exact exchange_proof. Qed.
Print Assumptions order_of_axes.
(** A crystal with different permittivities along its three axes, on a grid of 4 by 3 by 5 points. *)
Definition box : raster := {| rshape := [4; 3; 5]%nat; rstep := [1; 1 / 2; 1 / 4]%R |}.
Definition crystal : tensor := TMatrix (fun i j _ => if Nat.eqb i j then (INR (1 + i), 1 / 4)%R else 0).
Example axes_hypotheses : lossy_problem millionth box 2 true crystal 1 (1 / 4) /\ (2 < rndim box)%nat /\ exchanged_tensor 1 crystal <> crystal.
Proof.
  split; [|split; [cbn; lia|]].
  - unfold millionth. repeat split; try rewrite sqrt_square by lra; try lra; try (cbn; lia); try (repeat constructor; lia); try (repeat constructor; lra).
    intros p u _. cbn [tapply crystal csum rsum Nat.eqb]. rewrite !Cmod_sq. destruct (u 0%nat), (u 1%nat), (u 2%nat). cbn. lra.
  - intros H. injection H as H. pose proof (f_equal (fun m => fst (m 1%nat 1%nat [])) H) as Q. cbn in Q. lra.
Qed.
