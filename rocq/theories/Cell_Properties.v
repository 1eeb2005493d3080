(** Periodic structures (C137), homogeneous media (C138), and the wavelength (C139). *)
From Coq Require Import Reals Lra Lia List Arith Bool.
Require Import Verif.Base Verif.Cplx Verif.CSum Verif.Field Verif.Fourier_Model Verif.Fourier_Spec Verif.Vec_Model Verif.Vec_Spec Verif.Solver_Model Verif.Solver_Spec Verif.Solver_Choice.
Require Import Verif.Choice_Model Verif.Symmetry_Spec Verif.Symmetry_Properties Verif.Maxwell_Properties Verif.Cell_Spec Verif.Cell_Proofs Verif.Cell_Uniform.
Import ListNotations.
Local Open Scope R_scope.
Local Open Scope C_scope.

(** C137: when grid, medium, source, and initial field are repeated any number of times along each axis, the field of every iteration is repeated. *)
Theorem periodic_structure : forall eps r g k0 v epsilon xi zeta mu settled kappa S F i, repeats r (rshape g) -> nonempty (rshape g) -> (v = true -> (rndim g <= 3)%nat) -> fits v epsilon -> fits v xi -> fits v zeta -> fits v mu ->
  let s := rshape g in let rp := repeated_tensor s in
  let o := construct eps g k0 v epsilon xi zeta mu settled kappa S in
  let o' := construct eps (repeated_grid r g) k0 v (rp epsilon) (rp xi) (rp zeta) (rp mu) settled kappa (repeated s S) in
  vagree (if v then 3 else 1) (times r s) (Nat.iter i (next_field o') (repeated s F)) (repeated s (Nat.iter i (next_field o) F)).
Proof. exact repeated_proof. Qed.
Print Assumptions periodic_structure.
Example periodic_hypotheses : repeats [2; 3]%nat (rshape chiral5) /\ nonempty (rshape chiral5) /\ (rndim chiral5 <= 3)%nat /\ rshape (repeated_grid [2; 3]%nat chiral5) = [10; 9]%nat /\
  fits true chiral_xi /\ fits true lossy_mu /\ repeated_tensor (rshape chiral5) lossy_mu <> lossy_mu.
Proof.
  repeat split; try (cbn; lia); try (repeat constructor; lia). intros E. unfold lossy_mu, repeated_tensor in E. cbn [rshape chiral5] in E.
  assert (Q : forall f h, TScalar f = TScalar h -> f [7; 0]%nat = h [7; 0]%nat) by (intros f h e; injection e as e; rewrite e; reflexivity). apply Q in E. apply (f_equal snd) in E. cbn in E. lra.
Qed.

(** C138: in a homogeneous lossy medium, the spectrum of the field is that of the source times the Green function m (I - k k^T / k_n^2) / (k^2 - k_n^2), where k_n^2 = k_0^2 e m. *)
Theorem homogeneous_vector : forall eps g k0 (e : C) m loss settled kappa S E, lossy_problem eps g k0 true (tuniform e) m loss ->
  computes 3 (rshape g) k0 (construct eps g k0 true (tuniform e) tzero tzero (tuniform (RtoC m)) settled kappa S) E ->
  forall c q, (c < 3)%nat -> inside (rshape g) q -> let K i := RtoC (wavevector g q i) in let k2 := RtoC (k0 * k0 * m) * e in
  let F c := ft (rshape g) (S c) q in
  ft (rshape g) (E c) q = RtoC m * (F c - K c * dot3 K F / k2) / (dot3 K K - k2).
Proof. exact homogeneous_vector_proof. Qed.
Print Assumptions homogeneous_vector.
(** C138: scalar fields. *)
Theorem homogeneous_scalar : forall eps g k0 (e : C) m loss settled kappa S E, lossy_problem eps g k0 false (tuniform e) m loss ->
  computes 1 (rshape g) k0 (construct eps g k0 false (tuniform e) tzero tzero (tuniform (RtoC m)) settled kappa S) E ->
  forall q, inside (rshape g) q ->
  ft (rshape g) (E 0%nat) q = RtoC m * ft (rshape g) (S 0%nat) q / (RtoC (rsum (rndim g) (fun i => wavevector g q i * wavevector g q i)%R) - RtoC (k0 * k0 * m) * e).
Proof. exact homogeneous_scalar_proof. Qed.
Print Assumptions homogeneous_scalar.
Example homogeneous_hypotheses v : lossy_problem millionth {| rshape := [4; 3; 5]%nat; rstep := [1; 2; 1 / 2]%R |} 2 v (tuniform (2, 1 / 2)%R) (11 / 10) (1 / 2).
Proof.
  unfold millionth. repeat split; try rewrite sqrt_square by lra; try lra; try (cbn; lia); try (repeat constructor; lia); try (repeat constructor; lra).
  apply absorbs_scalar. intros p _. cbn. lra.
Qed.

(** C139: the field for a wavelength that is a times as long and a permittivity that is a^2 times as large is the same. *)
Theorem wavelength_and_index : forall eps g k0 v epsilon m loss settled settled' kappa kappa' a S E, (0 < a)%R -> lossy_problem eps g k0 v epsilon m loss -> let n := (if v then 3 else 1)%nat in
  computes n (rshape g) k0 (construct eps g k0 v epsilon tzero tzero (tuniform (RtoC m)) settled kappa S) E <->
  computes n (rshape g) (k0 / a) (construct eps g (k0 / a) v (tscale (RtoC (a * a)) epsilon) tzero tzero (tuniform (RtoC m)) settled' kappa' S) E.
Proof. exact wavelength_proof. Qed.
Print Assumptions wavelength_and_index.
(** C139: the field for a uniform permeability m is that for the permittivity and the source multiplied by m. *)
Theorem uniform_permeability : forall eps g k0 v epsilon m loss settled settled' kappa kappa' S E, (800 * sqrt eps < 1)%R -> lossy_problem eps g k0 v epsilon m loss -> let n := (if v then 3 else 1)%nat in
  computes n (rshape g) k0 (construct eps g k0 v epsilon tzero tzero (tuniform (RtoC m)) settled kappa S) E <->
  computes n (rshape g) k0 (construct eps g k0 v (tscale (RtoC m) epsilon) tzero tzero (tuniform (RtoC 1)) settled' kappa' (fun c p => RtoC m * S c p)) E.
Proof. exact permeability_proof. Qed.
Print Assumptions uniform_permeability.
Example permeability_hypotheses : (800 * sqrt millionth < 1)%R /\ lossy_problem millionth {| rshape := [4; 3; 5]%nat; rstep := [1; 2; 1 / 2]%R |} 2 true (tuniform (2, 1 / 2)%R) (11 / 10) (1 / 2).
Proof. split; [unfold millionth; rewrite sqrt_square by lra; lra|apply homogeneous_hypotheses]. Qed.
