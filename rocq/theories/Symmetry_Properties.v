(** Symmetries of the solution: C109 to C116. *)
From Coq Require Import Reals Lra Lia List Arith Bool.
Require Import Verif.Base Verif.Cplx Verif.CSum Verif.Field Verif.Fourier_Model Verif.Fourier_Spec Verif.Vec_Model Verif.Vec_Spec Verif.Solver_Model Verif.Solver_Spec Verif.Solver_Choice.
Require Import Verif.Choice_Model Verif.Choice_Construct Verif.Symmetry_Spec Verif.Symmetry_Linear Verif.Symmetry_Shift Verif.Symmetry_Embed Verif.Symmetry_Results.
Import ListNotations.
Local Open Scope R_scope.
Local Open Scope C_scope.

(** A medium with two layers on a one-dimensional grid of three points. *)
Definition three : raster := {| rshape := [3]%nat; rstep := [1 / 2]%R |}.
Definition layers : sfield := fun p => match p with 1%nat :: _ => (2, 1 / 2)%R | _ => (1, 1 / 4)%R end.
Definition millionth : R := (1 / 1000 * (1 / 1000))%R.
Example layers_lossy v : lossy_problem millionth three 2 v (TScalar layers) 1 (1 / 4).
Proof.
  unfold millionth. repeat split; try rewrite sqrt_square by lra; try lra; try (cbn; lia); try (repeat constructor; lia); try (repeat constructor; lra).
  apply absorbs_scalar. intros p _. destruct p as [|[|[|k]] p]; cbn; lra.
Qed.

(** C109: every iteration is linear in the source and the initial field, in all media. *)
Theorem superposition : forall eps g k0 v epsilon xi zeta mu settled kappa a b S1 S2 F1 F2 i,
  let o S := construct eps g k0 v epsilon xi zeta mu settled kappa S in
  Nat.iter i (next_field (o (combination a b S1 S2))) (combination a b F1 F2) = combination a b (Nat.iter i (next_field (o S1)) F1) (Nat.iter i (next_field (o S2)) F2).
Proof. exact superposition_proof. Qed.
Print Assumptions superposition.
(** C109: and so is the computed solution, in all media in which the iteration converges. *)
Theorem superposition_solution : forall eps g k0 (v : bool) epsilon xi zeta mu settled kappa a b S1 S2 E1 E2,
  let n := (if v then 3 else 1)%nat in let o S := construct eps g k0 v epsilon xi zeta mu settled kappa S in
  computes n (rshape g) k0 (o S1) E1 -> computes n (rshape g) k0 (o S2) E2 -> computes n (rshape g) k0 (o (combination a b S1 S2)) (combination a b E1 E2).
Proof. exact superposition_limit_proof. Qed.
Print Assumptions superposition_solution.
Example superposition_hypotheses : forall S, exists E, computes 3 (rshape three) 2 (construct millionth three 2 true (TScalar layers) tzero tzero (tuniform (RtoC 1)) (1, 1)%R None S) E.
Proof. intros S. exact (lossy_exists millionth three 2 true (TScalar layers) 1 (1 / 4) (1, 1)%R None S (layers_lossy true)). Qed.

(** C110: exchanging source and detector.  Only for scalar problems, one-dimensional grids, and grids of which all sizes are odd. *)
Theorem reciprocity_partial : forall eps g k0 v epsilon m loss settled kappa S1 S2 E1 E2, lossy_problem eps g k0 v epsilon m loss -> symmetric (rshape g) epsilon ->
  (v = true -> odd_sizes (rshape g) \/ (rndim g <= 1)%nat) ->
  let n := (if v then 3 else 1)%nat in let o S := construct eps g k0 v epsilon tzero tzero (tuniform (RtoC m)) settled kappa S in
  computes n (rshape g) k0 (o S1) E1 -> computes n (rshape g) k0 (o S2) E2 -> product n (rshape g) E1 S2 = product n (rshape g) E2 S1.
Proof. exact reciprocity_proof. Qed.
Print Assumptions reciprocity_partial.
Example reciprocity_hypotheses v : lossy_problem millionth three 2 v (TScalar layers) 1 (1 / 4) /\ symmetric (rshape three) (TScalar layers) /\ (v = true -> odd_sizes (rshape three) \/ (rndim three <= 1)%nat).
Proof. split; [apply layers_lossy|]. split; [exact I|]. intros _. left. repeat constructor. Qed.
(** C110: it fails for vector fields on grids with an even size, even in a uniform isotropic medium. *)
Theorem reciprocity_refuted : forall eps k0 (e : C) settled kappa, (0 < eps)%R -> (800 * sqrt eps < 1)%R -> k0 <> 0%R -> (0 < snd e)%R ->
  let g := {| rshape := [2; 3]%nat; rstep := [1; 1]%R |} in let o S := construct eps g k0 true (tuniform e) tzero tzero (tuniform 1) settled kappa S in
  exists S1 S2 E1 E2, computes 3 (rshape g) k0 (o S1) E1 /\ computes 3 (rshape g) k0 (o S2) E2 /\ product 3 (rshape g) E1 S2 <> product 3 (rshape g) E2 S1.
Proof. exact reciprocity_refuted_proof. Qed.
Print Assumptions reciprocity_refuted.

(** C111: a translation of medium, source, and initial field over the periodic grid translates the field of every iteration. *)
Theorem translation : forall eps g k0 v epsilon (mu : C) settled kappa S F q i, (v = true -> (rndim g <= 3)%nat) -> fits v epsilon -> let s := rshape g in inside s q ->
  let o := construct eps g k0 v epsilon tzero tzero (tuniform mu) settled kappa S in
  let o' := construct eps g k0 v (translated_tensor s q epsilon) tzero tzero (tuniform mu) settled kappa (translated s q S) in
  vagree (if v then 3 else 1) s (Nat.iter i (next_field o') (translated s q F)) (translated s q (Nat.iter i (next_field o) F)).
Proof. exact translation_proof. Qed.
Print Assumptions translation.
Example translation_hypotheses : (rndim three <= 3)%nat /\ fits true (TScalar layers) /\ inside (rshape three) [2]%nat /\ translated_tensor (rshape three) [2]%nat (TScalar layers) <> TScalar layers.
Proof.
  split; [cbn; lia|]. split; [exact I|]. split; [repeat constructor; lia|]. intros H. cbn in H. injection H as H. pose proof (f_equal (fun f => fst (f [0]%nat)) H) as Q. cbn in Q. lra.
Qed.

(** C112: the unit of length: all lengths multiplied by a and the wave number divided by it, with the source divided by the square of a. *)
Theorem unit_of_length : forall eps g k0 v epsilon xi zeta mu settled kappa a S F i, (0 < a)%R -> k0 <> 0%R -> List.Forall (fun d => d <> 0%R) (rstep g) ->
  electric_field (k0 / a) (Nat.iter i (next_field (construct eps (magnified a g) (k0 / a) v epsilon xi zeta mu settled kappa (fun c p => S c p / RtoC (a * a)))) (fun c p => F c p / RtoC (a * a))) =
  electric_field k0 (Nat.iter i (next_field (construct eps g k0 v epsilon xi zeta mu settled kappa S)) F).
Proof. exact magnified_proof. Qed.
Print Assumptions unit_of_length.
Example unit_hypotheses : (0 < 1 / 1000000)%R /\ 2%R <> 0%R /\ List.Forall (fun d => d <> 0%R) (rstep three).
Proof. repeat split; try lra. repeat constructor; lra. Qed.

(** C113: the vector field polarized along an axis that the grid does not have is the solution of the scalar problem. *)
Theorem transverse_polarization : forall eps g k0 e h settled kappa S axis F i, (rndim g <= axis)%nat -> is_magnetic (rshape g) tzero tzero (TScalar h) = false ->
  let o := construct eps g k0 false (TScalar e) tzero tzero (TScalar h) settled kappa S in
  let o' := construct eps g k0 true (TScalar e) tzero tzero (TScalar h) settled kappa (polarized axis S) in
  Nat.iter i (next_field o') (polarized axis F) = polarized axis (Nat.iter i (next_field o) F).
Proof. exact polarized_proof. Qed.
Print Assumptions transverse_polarization.
Example transverse_hypotheses : (rndim three <= 2)%nat /\ is_magnetic (rshape three) tzero tzero (TScalar (fun _ => 2)) = false.
Proof. split; [cbn; lia|]. apply (not_magnetic (rshape three) 2). Qed.

(** C114: a problem that does not vary along an additional last axis has the solution of the problem without that axis. *)
Theorem constant_axis : forall eps g n d k0 v epsilon (mu : C) settled kappa S F i, (0 < n)%nat -> proper g -> k0 <> 0%R -> (v = true -> (rndim g < 3)%nat) -> fits v epsilon ->
  let o := construct eps g k0 v epsilon tzero tzero (tuniform mu) settled kappa S in
  let o' := construct eps (extruded g n d) k0 v (spread_tensor epsilon) tzero tzero (tuniform mu) settled kappa (spread S) in
  vagree (if v then 3 else 1) (rshape g ++ [n]) (Nat.iter i (next_field o') (spread F)) (spread (Nat.iter i (next_field o) F)).
Proof. exact extruded_proof. Qed.
Print Assumptions constant_axis.
Example constant_axis_hypotheses : proper three /\ (rndim three < 3)%nat /\ fits true (TScalar layers).
Proof. repeat split; cbn; repeat constructor; lra || lia. Qed.

(** C115: the solution is bounded by the source, *)
Theorem source_bounds_solution : forall eps g k0 v epsilon m loss settled kappa S E, lossy_problem eps g k0 v epsilon m loss -> let n := (if v then 3 else 1)%nat in
  computes n (rshape g) k0 (construct eps g k0 v epsilon tzero tzero (tuniform (RtoC m)) settled kappa S) E ->
  (sqrt (vnorm2 n (rshape g) E) <= sqrt (vnorm2 n (rshape g) S) / (k0 * k0 * loss))%R.
Proof. exact bounded_proof. Qed.
Print Assumptions source_bounds_solution.
(** and small differences of the permittivity make small differences of the solution. *)
Theorem small_perturbation : forall eps g k0 v eps1 eps2 m loss loss2 d settled settled' kappa kappa' S E1 E2, lossy_problem eps g k0 v eps1 m loss -> lossy_problem eps g k0 v eps2 m loss2 -> (0 <= d)%R ->
  let n := (if v then 3 else 1)%nat in near n (rshape g) eps1 eps2 d ->
  computes n (rshape g) k0 (construct eps g k0 v eps1 tzero tzero (tuniform (RtoC m)) settled kappa S) E1 ->
  computes n (rshape g) k0 (construct eps g k0 v eps2 tzero tzero (tuniform (RtoC m)) settled' kappa' S) E2 ->
  (sqrt (vnorm2 n (rshape g) (fun c p => E1 c p - E2 c p)%C) <= d / loss * sqrt (vnorm2 n (rshape g) E2))%R.
Proof. exact perturbed_proof. Qed.
Print Assumptions small_perturbation.
Example perturbation_hypotheses : lossy_problem millionth three 2 true (TScalar layers) 1 (1 / 4) /\ lossy_problem millionth three 2 true (tuniform (1, 1 / 4)%R) 1 (1 / 4) /\
  near 3 (rshape three) (TScalar layers) (tuniform (1, 1 / 4)%R) 2.
Proof.
  split; [apply layers_lossy|]. split.
  - destruct (layers_lossy true) as (A & B & D & E & G & _ & H & _). repeat split; try assumption; try apply G. apply absorbs_scalar. intros p _. cbn. lra.
  - intros p u Hp. rewrite <- rsum_scal. apply rsum_le. intros i _. cbn [tapply tuniform]. rewrite !Cmod_sq. destruct (u i) as [x y]. destruct p as [|[|[|k]] p]; cbn; nra.
Qed.

(** C116: an isotropic permittivity may be given as numbers or as multiples of the identity matrix. *)
Theorem isotropic_forms : forall eps g k0 f m loss settled settled' kappa kappa' S E, lossy_problem eps g k0 true (TScalar f) m loss ->
  computes 3 (rshape g) k0 (construct eps g k0 true (TScalar f) tzero tzero (tuniform (RtoC m)) settled kappa S) E <->
  computes 3 (rshape g) k0 (construct eps g k0 true (TMatrix (fun i j p => if Nat.eqb i j then f p else 0)) tzero tzero (tuniform (RtoC m)) settled' kappa' S) E.
Proof. exact isotropic_proof. Qed.
Print Assumptions isotropic_forms.
Example isotropic_hypotheses : lossy_problem millionth three 2 true (TScalar layers) 1 (1 / 4).
Proof. apply layers_lossy. Qed.
