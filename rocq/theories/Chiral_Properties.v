(** Magnetic and chiral media: rounding errors (C140), mirror images (C141), and the order of the axes (C142). *)
From Coq Require Import Reals Lra Lia List Arith Bool.
Require Import Verif.Base Verif.Cplx Verif.CSum Verif.Field Verif.Fourier_Model Verif.Fourier_Spec Verif.Fourier_Proofs Verif.Display_Model Verif.Modes_Model Verif.Vec_Model Verif.Vec_Spec Verif.Vec_Proofs Verif.Solver_Model Verif.Solver_Spec Verif.Solver_Proofs Verif.Solver_Convergence Verif.Choice_Model Verif.Choice_Proofs Verif.Derived_Model Verif.Derived_Spec.
Require Import Verif.Magnetic_Spec Verif.Symmetry_Spec Verif.Maxwell_Spec Verif.Maxwell_Proofs Verif.Maxwell_Properties Verif.Maxwell_Mirror Verif.Robust_Magnetic Verif.Robust_Spec.
Import ListNotations.
Local Open Scope R_scope.
Local Open Scope C_scope.

(** C140: in lossy magnetic and chiral media, the correction that the solver reports tells the error of a field, and the effect of all rounding errors together stays below a
    fixed level, however many iterations are made. *)
Theorem magnetic_rounding : forall eps u g k0 epsilon xi zeta mu settled thick loss J E, physical u -> magnetic_problem eps g k0 epsilon xi zeta mu settled loss ->
  let s := rshape g in let o := construct eps g k0 true epsilon xi zeta mu settled thick (driving u k0 J) in
  computes 3 s k0 o E -> exists r, (0 <= r < 1)%R /\
    (forall F, ((1 - r) * error 3 s k0 F E <= size 3 s (electric_field k0 (update o F)) <= (1 + r) * error 3 s k0 F E)%R) /\
    (forall d0 d1 X, (0 <= d0)%R -> (0 <= d1)%R -> (r + d1 < 1)%R -> perturbed 3 s k0 (fun _ => next_field o) d0 d1 X ->
     forall m, (error 3 s k0 (X m) E <= (r + d1) ^ m * error 3 s k0 (X 0%nat) E + (d0 + d1 * size 3 s E) / (1 - (r + d1)))%R).
Proof. exact rb_problem. Qed.
Print Assumptions magnetic_rounding.
(** C140: without loss the errors at most add up. *)
Theorem magnetic_rounding_adds_up : forall eps u g k0 epsilon xi zeta mu nu settled thick J kappa, (0 < eps)%R -> (2 * eps <= 1)%R -> physical u -> solvable true g k0 -> (0 < k0)%R ->
  inverse_of (rshape g) mu nu -> is_magnetic (rshape g) xi zeta mu = true ->
  (20 * sqrt (2 * sqrt eps) * ((1 + highest_frequency g k0) * (1 + highest_frequency g k0)) < snd settled * snd settled)%R ->
  (forall G, vagree 3 (rshape g) (coupling xi zeta nu G) (fun c p => kappa * G c p)) ->
  forall E H d0 d1 X, dissipates (rshape g) epsilon xi zeta mu 0 -> maxwell u g k0 epsilon xi zeta mu E H J -> (0 <= d0)%R -> (0 <= d1)%R ->
  let s := rshape g in let o := construct eps g k0 true epsilon xi zeta mu settled thick (driving u k0 J) in perturbed 3 s k0 (fun _ => next_field o) d0 d1 X ->
  forall m, (error 3 s k0 (X m) E <= (1 + d1) ^ m * (error 3 s k0 (X 0%nat) E + INR m * (d0 + d1 * size 3 s E)))%R.
Proof. exact rb_lossless. Qed.
Print Assumptions magnetic_rounding_adds_up.
(** A chiral medium with magnetic loss, and the sequence of fields without errors. *)
Example rounding_chiral u thick J : physical u -> magnetic_problem tiny chiral5 2 (TScalar (fun _ => (2, 1)%R)) chiral_xi chiral_zeta lossy_mu (0, 1)%R (1 / 2) /\
  let o := construct tiny chiral5 2 true (TScalar (fun _ => (2, 1)%R)) chiral_xi chiral_zeta lossy_mu (0, 1)%R thick (driving u 2 J) in
  (exists E, computes 3 (rshape chiral5) 2 o E) /\ perturbed 3 (rshape chiral5) 2 (fun _ => next_field o) (1 / 1000) (1 / 1000) (fun m => Nat.iter m (next_field o) (fun _ _ => 1)).
Proof.
  intros U. split; [apply chiral_problem|]. intros o. split; [exact (computed_exists _ u _ _ _ _ _ _ _ thick J _ U (chiral_problem (fun _ => 2%R)))|].
  intros m. change (Nat.iter (Datatypes.S m) (next_field o) (fun _ _ => RtoC 1)) with (next_field o (Nat.iter m (next_field o) (fun _ _ => RtoC 1))). unfold error, size. rewrite (vagree_vnorm2 3 _ _ (fun _ _ => 0)) by (intros c p _ _; cbv beta; ring). rewrite vnorm2_zero_field, sqrt_0.
  pose proof (sqrt_pos (vnorm2 3 (rshape chiral5) (electric_field 2 (Nat.iter m (next_field o) (fun _ _ => RtoC 1))))). lra.
Qed.
(** A lossless chiral medium, and the field of a source with the highest frequency. *)
Example rounding_lossless u : physical u -> let g := {| rshape := [2]%nat; rstep := [1]%R |} in let xi := tuniform (0, 1)%R in let zeta := tuniform (0, - (1))%R in let mu := tuniform (RtoC 2) in let nu := tuniform (/ RtoC 2) in
  inverse_of (rshape g) mu nu /\ is_magnetic (rshape g) xi zeta mu = true /\ (20 * sqrt (2 * sqrt tiny) * ((1 + highest_frequency g 2) * (1 + highest_frequency g 2)) < 1 * 1)%R /\
  (forall G, vagree 3 (rshape g) (coupling xi zeta nu G) (fun c p => 0 * G c p)) /\ dissipates (rshape g) (tuniform 1) xi zeta mu 0 /\ exists E H J, maxwell u g 2 (tuniform 1) xi zeta mu E H J /\ E 1%nat [0]%nat <> 0.
Proof.
  intros U g xi zeta mu nu. destruct chiral_pair as (_ & _ & _ & _ & _ & M & Pr & _). assert (T : RtoC 2 <> 0) by (apply RtoC_neq; lra). split; [|split; [|split; [|split; [|split]]]].
  - intros F. split; intros c p _ _; cbn [tapply mu nu tuniform]; field; exact T.
  - unfold is_magnetic. apply negb_true_iff. rewrite <- andb_assoc. apply andb_false_iff. left. unfold allclose, all_over. apply negb_false_iff. apply any_over_spec. exists [0]%nat. split; [repeat constructor; lia|]. apply negb_true_iff. cbn [elements forallb xi tuniform].
    apply andb_false_iff. left. unfold close, Rleb. destruct (Rle_dec _ _) as [H|H]; [exfalso|reflexivity]. rewrite Cmod_0 in H. pose proof (Cmod_Im_le ((0, 1)%R - 0)) as H0. cbn [snd Cminus Cplus Copp RtoC] in H0. rewrite Rabs_pos_eq in H0 by (cbn; lra). cbn in H0. lra.
  - exact Pr.
  - intros G c p _ _. unfold coupling. cbn [tapply xi zeta nu tuniform]. transitivity (((0, 1)%R + (0, - (1))%R) * / RtoC 2 * G c p); [ring|]. replace ((0, 1)%R + (0, - (1))%R) with (RtoC 0) by (apply C_eq; cbn; ring). ring.
  - intros p E H _ at_p. unfold at_p. cbn [csum rsum tapply xi zeta mu tuniform]. destruct (E 0%nat), (E 1%nat), (E 2%nat), (H 0%nat), (H 1%nat), (H 2%nat). cbn. lra.
  - exists (wave (unit 1)). eexists. eexists. split; [exact (wave_solves u 2 1 (0, 1)%R (0, - (1))%R (RtoC 2) U ltac:(lra) T (unit 1))|]. unfold wave, unit. cbn [Nat.eqb]. intros Z.
    pose proof (wave_square [0]%nat ltac:(repeat constructor; lia)) as Sq. rewrite Cmult_1_l in Z. rewrite Z in Sq. apply (f_equal fst) in Sq. cbn in Sq. lra.
Qed.

(** C141: the mirror image of a magnetic or chiral problem, in which right-handed turns into left-handed, has the mirror image of the solution.  Only when the axis
    perpendicular to the mirror has an odd number of points (or is not an axis of the grid). *)
Theorem magnetic_mirror_partial : forall eps u g k0 epsilon xi zeta mu settled settled' thick thick' loss axis J E, physical u -> magnetic_problem eps g k0 epsilon xi zeta mu settled loss ->
  (axis < 3)%nat -> Nat.odd (nth axis (rshape g) 1%nat) = true -> let s := rshape g in let mt := mirrored_tensor axis s in
  is_magnetic s (negated (mt xi)) (negated (mt zeta)) (mt mu) = true ->
  (20 * sqrt (2 * sqrt eps) * ((1 + highest_frequency g k0) * (1 + highest_frequency g k0)) < snd settled' * snd settled')%R ->
  computes 3 s k0 (construct eps g k0 true epsilon xi zeta mu settled thick (driving u k0 J)) E ->
  computes 3 s k0 (construct eps g k0 true (mt epsilon) (negated (mt xi)) (negated (mt zeta)) (mt mu) settled' thick' (driving u k0 (mirrored true axis s J))) (mirrored true axis s E).
Proof. exact handed_mirror. Qed.
Print Assumptions magnetic_mirror_partial.
Lemma handed_magnetic (x m : list nat -> R) t p0 : inside t p0 -> (1 / 4 <= x p0)%R -> is_magnetic t (TScalar (fun p => - ((0, x p)%R : C))) (TScalar (fun p => - ((0, - x p)%R : C))) (TScalar (fun p => (1, m p)%R)) = true.
Proof.
  intros Hp0 Hx. unfold is_magnetic. apply negb_true_iff. rewrite <- andb_assoc. apply andb_false_iff. left. unfold allclose, all_over. apply negb_false_iff. apply any_over_spec. exists p0. split; [exact Hp0|]. apply negb_true_iff. cbn [elements forallb].
  apply andb_false_iff. left. unfold close, Rleb. destruct (Rle_dec _ _) as [H|H]; [exfalso|reflexivity]. rewrite Cmod_0 in H. pose proof (Cmod_Im_le (- ((0, x p0)%R : C) - 0)) as H0. cbn [snd Cminus Cplus Copp RtoC] in H0. rewrite Rabs_left in H0 by (cbn; lra). cbn in H0. lra.
Qed.
Example mirror_chiral : magnetic_problem tiny chiral5 2 (TScalar (fun _ => (2, 1)%R)) chiral_xi chiral_zeta lossy_mu (0, 1)%R (1 / 2) /\ Nat.odd (nth 0 (rshape chiral5) 1%nat) = true /\
  let mt := mirrored_tensor 0 (rshape chiral5) in is_magnetic (rshape chiral5) (negated (mt chiral_xi)) (negated (mt chiral_zeta)) (mt lossy_mu) = true /\ mt lossy_mu <> lossy_mu.
Proof.
  split; [apply chiral_problem|]. split; [reflexivity|]. split.
  - apply (handed_magnetic (fun p => twist (opposite 0 [5; 3]%nat p)) (fun p => ((INR (hd 0%nat (opposite 0 [5; 3]%nat p)) + 1) / 2)%R) _ [4; 0]%nat); [repeat constructor; lia|unfold twist; cbn; lra].
  - intros X. assert (Y : forall a b, TScalar a = TScalar b -> a = b) by (intros a b Z; injection Z; auto). apply Y in X. apply (f_equal (fun f => snd (f [1; 0]%nat))) in X. cbn in X. lra.
Qed.
(** C141: it fails when the number of points is even, even in a uniform chiral medium. *)
Theorem magnetic_mirror_refuted : forall eps u k0 x settled settled' thick thick' loss loss', let g := {| rshape := [2]%nat; rstep := [1]%R |} in let s := rshape g in let mt := mirrored_tensor 0 s in
  let epsilon := tuniform (1, 1)%R in let xi := tuniform (0, x)%R in let zeta := tuniform (0, - x)%R in let mu := tuniform (1, 1)%R in physical u -> x <> 0%R ->
  magnetic_problem eps g k0 epsilon xi zeta mu settled loss -> magnetic_problem eps g k0 (mt epsilon) (negated (mt xi)) (negated (mt zeta)) (mt mu) settled' loss' ->
  exists J E, computes 3 s k0 (construct eps g k0 true epsilon xi zeta mu settled thick (driving u k0 J)) E /\
    ~ computes 3 s k0 (construct eps g k0 true (mt epsilon) (negated (mt xi)) (negated (mt zeta)) (mt mu) settled' thick' (driving u k0 (mirrored true 0 s J))) (mirrored true 0 s E).
Proof. exact not_mirrored. Qed.
Print Assumptions magnetic_mirror_refuted.
Example mirrored_pair : let g := {| rshape := [2]%nat; rstep := [1]%R |} in let mt := mirrored_tensor 0 (rshape g) in
  magnetic_problem tiny g 2 (tuniform (1, 1)%R) (tuniform (0, 1)%R) (tuniform (0, - (1))%R) (tuniform (1, 1)%R) (0, 1)%R 1 /\
  magnetic_problem tiny g 2 (mt (tuniform (1, 1)%R)) (negated (mt (tuniform (0, 1)%R))) (negated (mt (tuniform (0, - (1))%R))) (mt (tuniform (1, 1)%R)) (0, 1)%R 1.
Proof.
  intros g mt. split; [exact chiral_pair|].
  assert (F : (0 <= highest_frequency g 2 <= 3)%R).
  { unfold highest_frequency. cbn [fold_right rstep g]. assert (0 < PI <= 4)%R as HP by (split; [apply PI_RGT_0|apply PI_4]). assert (sqrt (PI / 1 * (PI / 1) + 0) <= 4)%R as S2 by (rewrite <- (sqrt_square 4) by lra; apply sqrt_le_1_alt; nra). pose proof (sqrt_pos (PI / 1 * (PI / 1) + 0)) as P2. lra. }
  cbn [mt mirrored_tensor negated tuniform]. assert (N1 : - ((0, 1)%R : C) = (0, - (1))%R) by (apply C_eq; cbn; ring). assert (N2 : - ((0, - (1))%R : C) = (0, - - (1))%R) by (apply C_eq; cbn; ring). rewrite N1, N2.
  apply (scalar_problem g (fun _ => 1%R) (fun _ => (- (1))%R) (fun _ => 1%R) (fun _ => 1%R) 1 [0]%nat); try (apply F); try lra; try (intros; lra).
  - repeat split; cbn; repeat constructor; lra || lia.
  - cbn. lia.
  - repeat constructor; lia.
  - rewrite Rabs_left; lra.
Qed.

(** C142: exchanging two successive axes of the grid, a magnetic or chiral medium, and the source exchanges the axes of the solution, and its vector components; because this
    also turns right-handed axes into left-handed axes, the sign of the magneto-electric coupling must change. *)
Theorem magnetic_order_of_axes : forall eps u g k0 epsilon xi zeta mu settled settled' thick thick' loss axis J E, physical u -> magnetic_problem eps g k0 epsilon xi zeta mu settled loss ->
  (Datatypes.S axis < rndim g)%nat -> let g' := exchanged_grid axis g in let et := exchanged_tensor axis in
  is_magnetic (rshape g') (negated (et xi)) (negated (et zeta)) (et mu) = true ->
  (20 * sqrt (2 * sqrt eps) * ((1 + highest_frequency g k0) * (1 + highest_frequency g k0)) < snd settled' * snd settled')%R ->
  computes 3 (rshape g) k0 (construct eps g k0 true epsilon xi zeta mu settled thick (driving u k0 J)) E ->
  computes 3 (rshape g') k0 (construct eps g' k0 true (et epsilon) (negated (et xi)) (negated (et zeta)) (et mu) settled' thick' (driving u k0 (exchanged true axis J))) (exchanged true axis E).
Proof. exact handed_exchange. Qed.
Print Assumptions magnetic_order_of_axes.
Example exchange_chiral : magnetic_problem tiny chiral5 2 (TScalar (fun _ => (2, 1)%R)) chiral_xi chiral_zeta lossy_mu (0, 1)%R (1 / 2) /\ (1 < rndim chiral5)%nat /\
  let et := exchanged_tensor 0 in is_magnetic (rshape (exchanged_grid 0 chiral5)) (negated (et chiral_xi)) (negated (et chiral_zeta)) (et lossy_mu) = true /\ rshape (exchanged_grid 0 chiral5) = [3; 5]%nat.
Proof.
  split; [apply chiral_problem|]. split; [cbn; lia|]. split; [|reflexivity].
  apply (handed_magnetic (fun p => twist (exchange 0 p)) (fun p => ((INR (hd 0%nat (exchange 0 p)) + 1) / 2)%R) _ [0; 1]%nat); [repeat constructor; lia|unfold twist; cbn; lra].
Qed.
