(** The modes of a ScatteringMatrix: C38; small amplitudes: C85; planes: C86; coarse grids: C87. *)
From Coq Require Import Reals List Arith Bool ZArith Lia Lra Sorted.
Require Import Verif.Base Verif.Num Verif.Cplx Verif.CSum Verif.Field Verif.Fourier_Model Verif.Vec_Model Verif.Matrix_Model Verif.Matrix_Spec Verif.Modes_Model Verif.Modes_Spec Verif.Modes_Proofs Verif.Modes_Waves Verif.Modes_Fields Verif.Modes_Refuted.
Require Verif.Bound_Spec.
Import ListNotations.
Local Open Scope R_scope.
Local Open Scope C_scope.

(** ** Which modes *)
(** Every mode is a transverse wave vector of the grid that propagates. *)
Theorem modes_propagate : forall (o : optics) m, valid o -> In m (modes o) -> inside (shape_of o) m /\ (k2 (transverse o) m < wavenumber o * wavenumber o)%R.
Proof. exact modes_sound. Qed.
Print Assumptions modes_propagate.
(** Every transverse wave vector of the grid that propagates, but for a margin set by the tolerance, is a mode. *)
Theorem propagating_modes_listed : forall (o : optics) m, valid o -> inside (shape_of o) m ->
  (k2 (transverse o) m < wavenumber o * wavenumber o - 2 * wavenumber o * tolerance o)%R -> In m (modes o).
Proof. exact modes_complete. Qed.
Print Assumptions propagating_modes_listed.
(** They are listed once, in raster-scan order of the signed frequencies. *)
Theorem modes_in_raster_order : forall o : optics, StronglySorted precedes (map (signed (shape_of o)) (modes o)) /\ NoDup (modes o).
Proof. intros o. split; [apply modes_sorted|apply modes_NoDup]. Qed.
Print Assumptions modes_in_raster_order.
(** The tolerance is absolute: when lengths are large numbers (nanometers, say, and a wavelength over 0.4 mm) there are no modes at all,
    although the uniform wave propagates. *)
Theorem modes_units_refuted : forall o : optics, valid o -> (wavenumber o <= tolerance o)%R -> shape_of o <> [] ->
  modes o = [] /\ let m := map (fun _ => 0%nat) (shape_of o) in inside (shape_of o) m /\ (k2 (transverse o) m < wavenumber o * wavenumber o)%R.
Proof. exact no_modes_though_propagating. Qed.
Print Assumptions modes_units_refuted.

(** ** Vectors and fields *)
(** A vector with no element that is negligible but not zero stands for its superposition of plane waves, on a grid with at least two
    samples per wavelength. *)
Theorem source_vector_plane_waves : forall (o : optics) v c x r, valid o -> sampled o -> significant o v 0 -> significant o v 1 -> (c < 3)%nat -> inside (shape_of o) r ->
  srcvec2freespace o v c (x :: r) = waves o v c x r.
Proof. exact freespace_waves. Qed.
Print Assumptions source_vector_plane_waves.
(** The polarizations are transverse and orthonormal. *)
Theorem polarizations_transverse : forall (o : optics) j w, vectorial o = true -> valid o -> (j < n_modes o)%nat ->
  csum 3 (fun c => RtoC (direction o j c) * polarize o j w c) = 0 /\
  csum 3 (fun c => Cconj (polarize o j w c) * polarize o j w c) = csum 2 (fun p => Cconj (w p) * w p).
Proof. intros. split; [apply polarize_transverse|apply polarize_norm]; assumption. Qed.
Print Assumptions polarizations_transverse.
(** Vector to field at the detectors and back to the vector: nothing is lost, on any grid. *)
Theorem vector_field_vector : forall (o : optics) v (E : vfield) i, valid o -> significant o v 0 -> significant o v 1 -> (i < n_elements o)%nat ->
  (forall c r, (c < 3)%nat -> inside (shape_of o) r -> E c (back_detector o :: r) = srcvec2freespace o (only_side o 0 v) c (back_detector o :: r)) ->
  (forall c r, (c < 3)%nat -> inside (shape_of o) r -> E c (front_detector o :: r) = srcvec2freespace o (only_side o 1 v) c (front_detector o :: r)) ->
  detfield2detvec o E i = v i.
Proof. exact vector_roundtrip. Qed.
Print Assumptions vector_field_vector.
(** When the field at the detectors is that of the incident plane waves alone, the matrix is the identity. *)
Theorem empty_space_identity : forall (o : optics) solve v i, valid o -> sampled o -> significant o v 0 -> significant o v 1 -> front_detector o <> back_detector o ->
  (forall x c r, x = front_detector o \/ x = back_detector o -> (c < 3)%nat -> inside (shape_of o) r -> solve v c (x :: r) = waves o v c x r) ->
  (i < n_elements o)%nat -> scatter o solve v i = v i.
Proof. exact empty_space. Qed.
Print Assumptions empty_space_identity.
(** Time reversal of a vector is an involution, and conjugates the field at every sample. *)
Theorem time_reversal : forall (o : optics) v, (forall i, (i < n_elements o)%nat -> detvec2srcvec o (detvec2srcvec o v) i = v i) /\
  (forall c q, (c < 3)%nat -> srcvec2freespace o (detvec2srcvec o v) c q = Cconj (srcvec2freespace o v c q)).
Proof. intros o v. split; [intros; apply reverse_twice|intros; apply reverse_field]; assumption. Qed.
Print Assumptions time_reversal.

(** ** Small amplitudes *)
(** In one dimension, empty space reflects all light of a vector of magnitude at most 1e-8: the incident wave is taken for a reflection. *)
Theorem small_vector_refuted : forall o : optics, valid o -> shape_of o = [] -> vectorial o = false -> forall solve (a : C), (Cmod a <= / 100000000)%R ->
  let v : vec := fun i => a * basis 0 i in
  (forall x c r, solve v c (x :: r) = waves o v c x r) ->
  scatter o solve v 0%nat = a /\ scatter o solve v 1%nat = a * (cis (wavenumber o * xpos o (front_detector o)) * cis (wavenumber o * xpos o (front_detector o))).
Proof. exact small_mirror. Qed.
Print Assumptions small_vector_refuted.
(** The column cache then keeps that reflection for all later multiplications. *)
Theorem small_vector_poisons_cache_refuted : forall o : optics, valid o -> shape_of o = [] -> vectorial o = false -> forall solve (a : C), a <> 0 -> (Cmod a <= / 100000000)%R ->
  (forall v x c r, solve v c (x :: r) = waves o v c x r) ->
  exists w s, cached (scatter o solve) 2 true (after (scatter o solve) 2 true [Multiply true [fun i => a * basis 0 i]]) [basis 0] = Ok ([w], s) /\
    w 0%nat = 1 /\ w 1%nat = cis (wavenumber o * xpos o (front_detector o)) * cis (wavenumber o * xpos o (front_detector o)).
Proof. exact small_poisons. Qed.
Print Assumptions small_vector_poisons_cache_refuted.

(** ** Planes *)
(** On a grid that is long enough the planes are on the grid and in order. *)
Theorem planes_in_order : forall n tf tb wl st, (0 < st)%R -> (0 <= tf)%R -> (0 <= tb)%R -> (0 < wl)%R -> (tf + tb + 2 * wl + 2 * st < IZR n * st)%R ->
  (1 <= source_front tf st <= detector_front tf wl st)%Z /\ (detector_front tf wl st < detector_back n tb wl st)%Z /\ (detector_back n tb wl st <= source_back n tb st <= n - 1)%Z.
Proof. exact planes_ordered. Qed.
Print Assumptions planes_in_order.
(** The front source, and both detectors when there is a sample per wavelength, are outside the absorbing boundary of linear extinction. *)
Theorem planes_outside_boundary : forall n tf tb wl st kmax, (0 < st)%R -> (st <= wl)%R ->
  Bound_Spec.profile (fun d => kmax * d)%R tf (IZR (source_front tf st) * st)%R = 0%R /\
  Bound_Spec.profile (fun d => kmax * d)%R tf (IZR (detector_front tf wl st) * st)%R = 0%R /\
  Bound_Spec.profile (fun d => kmax * d)%R tb (IZR (n - 1 - detector_back n tb wl st) * st)%R = 0%R.
Proof. exact planes_not_absorbing. Qed.
Print Assumptions planes_outside_boundary.
(** The source at the back is inside the absorbing boundary, unless its thickness is a whole number of steps. *)
Theorem back_source_in_boundary_refuted : forall n tb st kmax, (0 < st)%R -> (0 < kmax)%R -> (0 < tb)%R -> (forall z : Z, tb <> IZR z * st)%R ->
  (0 < Bound_Spec.profile (fun d => kmax * d) tb (IZR (n - 1 - source_back n tb st) * st))%R.
Proof. exact back_source_absorbing. Qed.
Print Assumptions back_source_in_boundary_refuted.

(** ** Coarse grids *)
(** With less than two samples per wavelength the vector of the uniform plane wave may stand for another wave. *)
Theorem coarse_grid_modes_refuted : exists (o : optics) v, valid o /\ significant o v 0 /\ significant o v 1 /\
  waves o v 0%nat 0%nat [1%nat] = 1 /\ srcvec2freespace o v 0%nat [0%nat; 1%nat] = - (1).
Proof. exists coarse, (basis 1). exact coarse_all. Qed.
Print Assumptions coarse_grid_modes_refuted.

(** ** The hypotheses can be met *)
Definition fine : optics := {| transverse := {| rshape := [3%nat]; rstep := [3%R] |}; tfirst := [(-3)%R]; xpos := fun x => INR x; wavenumber := 1; tolerance := 0; front_detector := 5; back_detector := 40; vectorial := true |}.
Example fine_valid : valid fine /\ sampled fine.
Proof.
  unfold valid, sampled, fine, shape_of; cbn [transverse rshape rstep length wavenumber tolerance]. pose proof PI2_3_2.
  repeat split; repeat (apply Forall_cons || apply Forall_nil); try lra; try lia.
Qed.
Example fine_modes : In [1%nat] (modes fine) /\ In [2%nat] (modes fine) /\ (0 < n_modes fine)%nat.
Proof.
  assert (forall m, (m < 3)%nat -> In [m] (modes fine)) as K.
  { intros m Hm. apply modes_complete; [apply fine_valid|apply Forall2_cons; [lia|constructor]|].
    unfold k2, kvec, k_axis, rndim. cbn [fine transverse rshape rstep length rsum nth wavenumber tolerance]. pose proof PI_4. pose proof PI_RGT_0.
    assert (-1 <= IZR (k_index 3 m) <= 1)%R as B.
    { destruct m as [|[|[|]]]; [change (k_index 3 0) with 0%Z|change (k_index 3 1) with 1%Z|change (k_index 3 2) with (-1)%Z|lia]; lra. }
    cbn [INR]. set (z := IZR (k_index 3 m)) in *. replace (2 * PI * z / ((1 + 1 + 1) * 3))%R with (2 / 9 * PI * z)%R by field.
    assert (- (8 / 9) <= 2 / 9 * PI * z <= 8 / 9)%R by (split; nra). nra. }
  repeat split; try (apply K; lia). unfold n_modes. pose proof (K 0%nat ltac:(lia)). destruct (modes fine); [contradiction|cbn; lia].
Qed.
Example fine_significant : significant fine (basis 0) 0 /\ significant fine (basis 0) 1.
Proof.
  destruct fine_modes as (_ & _ & M). split.
  - right. exists 0%nat. change (n_pol fine) with 2%nat. split; [lia|]. cbn [Nat.mul Nat.add]. unfold basis. cbn [Nat.eqb]. rewrite Cmod_1. lra.
  - left. intros i Hi. unfold basis. destruct (Nat.eqb_spec (1 * (n_modes fine * n_pol fine) + i) 0) as [E|_]; [|reflexivity]. change (n_pol fine) with 2%nat in E. lia.
Qed.
Example back_source_example : (forall z : Z, (5 / 2)%R <> IZR z * 1)%R.
Proof. intros z E. assert (IZR (2 * z) = IZR 5) as F by (rewrite mult_IZR; lra). apply eq_IZR in F. lia. Qed.
