(** Magnetic and chiral problems that do not vary along an axis: they can be solved without that axis (C172), and the two polarizations do not mix (C173). *)
From Coq Require Import Reals Lra Lia List Arith Bool.
Require Import Verif.Base Verif.Cplx Verif.CSum Verif.Field Verif.Fourier_Model Verif.Vec_Model Verif.Vec_Spec Verif.Solver_Model Verif.Solver_Spec Verif.Choice_Model Verif.Derived_Model Verif.Derived_Spec Verif.Magnetic_Spec.
Require Import Verif.Symmetry_Spec Verif.Maxwell_Spec Verif.Maxwell_Proofs Verif.Maxwell_Properties Verif.Maxwell_Embed Verif.Plane_Spec Verif.Plane_Proofs.
Import ListNotations.
Local Open Scope R_scope.
Local Open Scope C_scope.

(** C172: a magnetic or chiral problem that does not vary along an additional last axis has the solution of the problem without that axis. *)
Theorem magnetic_constant_axis : forall eps u g n d k0 epsilon xi zeta mu settled settled' thick thick' loss J E, physical u -> magnetic_problem eps g k0 epsilon xi zeta mu settled loss ->
  (0 < n)%nat -> d <> 0%R -> (rndim g < 3)%nat -> let g' := extruded g n d in
  (20 * sqrt (2 * sqrt eps) * ((1 + highest_frequency g' k0) * (1 + highest_frequency g' k0)) < snd settled' * snd settled')%R ->
  computes 3 (rshape g) k0 (construct eps g k0 true epsilon xi zeta mu settled thick (driving u k0 J)) E ->
  computes 3 (rshape g') k0 (construct eps g' k0 true (spread_tensor epsilon) (spread_tensor xi) (spread_tensor zeta) (spread_tensor mu) settled' thick' (driving u k0 (spread J))) (spread E).
Proof. exact magnetic_axis_proof. Qed.
Print Assumptions magnetic_constant_axis.
Example magnetic_constant_axis_hypotheses : magnetic_problem tiny chiral5 2 (TScalar (fun _ => (2, 1)%R)) chiral_xi chiral_zeta lossy_mu (0, 1)%R (1 / 2) /\ (rndim chiral5 < 3)%nat /\ let g' := extruded chiral5 4 1 in
  (20 * sqrt (2 * sqrt tiny) * ((1 + highest_frequency g' 2) * (1 + highest_frequency g' 2)) < snd (0, 1) * snd (0, 1))%R /\
  forall u J, physical u -> exists E, computes 3 (rshape chiral5) 2 (construct tiny chiral5 2 true (TScalar (fun _ => (2, 1)%R)) chiral_xi chiral_zeta lossy_mu (0, 1)%R None (driving u 2 J)) E.
Proof.
  split; [apply chiral_problem|]. split; [cbn; lia|]. intros g'. split.
  - assert (F : (0 <= highest_frequency g' 2 <= 3)%R).
    { unfold highest_frequency, g', extruded. cbn [fold_right chiral5 rstep app]. assert (0 < PI <= 4)%R as HP by (split; [apply PI_RGT_0|apply PI_4]).
      set (x := (PI / 1 * (PI / 1) + (PI / 2 * (PI / 2) + (PI / 1 * (PI / 1) + 0)))%R). assert (sqrt x <= 6)%R as S2. { rewrite <- (sqrt_square 6) by lra. apply sqrt_le_1_alt. unfold x. nra. } pose proof (sqrt_pos x) as P2. lra. }
    cbn [snd]. apply fine_settled; apply F.
  - intros u J U. exact (computed_exists _ u _ _ _ _ _ _ _ None J _ U (chiral_problem (fun _ => 2%R))).
Qed.

(** C173: on a grid without the given axis, in media that do not turn the fields along that axis into the plane (epsilon and mu), or do so and back (xi and zeta), a source and an
    initial field along the axis give E and D along the axis, and B and H in the plane, and the other way around.  In both cases the energy flows in the plane. *)
Theorem polarizations_do_not_mix : forall eps u g k0 epsilon xi zeta mu settled thick S F i axis, (rndim g <= axis < 3)%nat ->
  straight axis epsilon -> turning axis xi -> turning axis zeta -> straight axis mu ->
  let o := construct eps g k0 true epsilon xi zeta mu settled thick S in let X := Nat.iter i (next_field o) F in
  (perpendicular axis S -> perpendicular axis F ->
    perpendicular axis (electric_field k0 X) /\ perpendicular axis (displacement_field u o k0 X) /\ in_plane axis (magnetic_field u o k0 X) /\ in_plane axis (magnetizing_field u o k0 X)) /\
  (in_plane axis S -> in_plane axis F ->
    in_plane axis (electric_field k0 X) /\ in_plane axis (displacement_field u o k0 X) /\ perpendicular axis (magnetic_field u o k0 X) /\ perpendicular axis (magnetizing_field u o k0 X)) /\
  (perpendicular axis S /\ perpendicular axis F \/ in_plane axis S /\ in_plane axis F -> forall p, poynting u o k0 X axis p = 0%R).
Proof. exact plane_proof. Qed.
Print Assumptions polarizations_do_not_mix.
(** A crystal with an optical axis in the plane, with a magneto-electric coupling, and with mu that varies. *)
Definition tilted : tensor := TMatrix (fun i j p => if Nat.eqb i j then (INR (2 + i), 1)%R else if (Nat.eqb i 2 || Nat.eqb j 2)%bool then 0 else (1 / 2, 0)%R).
Definition coupled : tensor := TMatrix (fun i j p => if xorb (Nat.eqb i 2) (Nat.eqb j 2) then (INR (hd 0%nat p), 1)%R else 0).
Example polarizations_hypotheses : (rndim chiral5 <= 2 < 3)%nat /\ straight 2 tilted /\ turning 2 coupled /\ straight 2 lossy_mu /\ perpendicular 2 (fun c p => if Nat.eqb c 2 then 1 else 0) /\ in_plane 2 (fun c p => if Nat.eqb c 2 then 0 else 1).
Proof.
  split; [cbn; lia|]. split; [|split; [|split; [exact I|split]]].
  - intros i p Hi N. destruct i as [|[|[|i]]]; try lia; split; reflexivity.
  - intros p. split; [reflexivity|]. intros i j Hi Hj Ni Nj. cbn. destruct (Nat.eqb_spec i 2), (Nat.eqb_spec j 2); try lia. reflexivity.
  - intros c p Hc N. cbn. destruct (Nat.eqb_spec c 2); [contradiction|reflexivity].
  - intros p. reflexivity.
Qed.
