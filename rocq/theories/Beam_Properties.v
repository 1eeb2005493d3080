(** The beam propagation method: C47, C48, C49, C91 (evanescent waves), C92 (transversality), C93 (weak fields), C94 (time reversal), C95 (power). *)
From Coq Require Import Reals List Arith Bool ZArith Lia Lra FunctionalExtensionality.
Require Import Verif.Base Verif.CSum Verif.Field Verif.Fourier_Model Verif.Fourier_Spec Verif.Fourier_Proofs Verif.Vec_Model Verif.Modes_Proofs.
Require Import Verif.Beam_Model Verif.Beam_Spec Verif.Beam_Proofs Verif.Beam_Media Verif.Beam_Slices Verif.Beam_More Verif.Beam_Vector Verif.Beam_Power Verif.Beam_Lost Verif.Beam_Return Verif.Cplx.
Import ListNotations.
Local Open Scope R_scope.
Local Open Scope C_scope.

(** ** Propagation in the background *)
(** Assign a spectrum; propagate and read as often as you like; read. Each component has the phase of the total distance, to within 1e-8. *)
Theorem propagation_history : forall (b : setup) (k : R) (s : section) (F : vfield) (l : list action),
  (0 < k)%R -> bk b = RtoC k -> section_grid (bgrid b) (baxis b) -> Forall homogeneous l ->
  exists d, (Rabs d <= / 100000000)%R /\ forall c q,
    read_ft b (run b s (SetFt F :: l)) c q = read_ft b (run b s [SetFt F]) c q * cis ((total l - d) * axial (bgrid b) (baxis b) k q).
Proof.
  intros b k s F l K BK G H. destruct (history_near b s F l H) as (d & D & E). exists d. split; [exact D|]. intros c q. rewrite E, (propagator_real b k) by assumption.
  rewrite (history_exact b s F []) by first [exact (Forall_nil _) | left; reflexivity]. cbn [total fold_right]. rewrite propagator_0. ring.
Qed.
Print Assumptions propagation_history.
(** Exactly so without reading in between, unless the total is not zero but counts as zero. *)
Theorem propagation_total : forall (b : setup) (k : R) (s : section) (F : vfield) (l : list action),
  (0 < k)%R -> bk b = RtoC k -> section_grid (bgrid b) (baxis b) -> Forall moving l -> resolved (total l) ->
  forall c q, read_ft b (run b s (SetFt F :: l)) c q = read_ft b (run b s [SetFt F]) c q * cis (total l * axial (bgrid b) (baxis b) k q).
Proof.
  intros b k s F l K BK G H T c q. rewrite (history_exact b s F l H T). rewrite (history_exact b s F []) by first [exact (Forall_nil _) | left; reflexivity].
  cbn [total fold_right]. rewrite propagator_0, (propagator_real b k) by assumption. ring.
Qed.
Print Assumptions propagation_total.
(** With complex wavenumbers as well, there is one axial wavenumber for each component, whatever the history. *)
Theorem propagation_group : forall b, exists kz : list nat -> C, forall s F l, Forall homogeneous l ->
  exists d, (Rabs d <= / 100000000)%R /\ forall c q, read_ft b (run b s (SetFt F :: l)) c q = read_ft b (run b s [SetFt F]) c q * cexp (Ci * RtoC (total l - d) * kz q).
Proof.
  intros b. exists (fun q => bk b * k_dir b (baxis b) q). intros s F l H. destruct (history_near b s F l H) as (d & D & E). exists d. split; [exact D|]. intros c q. rewrite E.
  rewrite (history_exact b s F []) by first [exact (Forall_nil _) | left; reflexivity]. cbn [total fold_right]. rewrite propagator_0, Cmult_1_r. unfold propagator. f_equal. f_equal. ring.
Qed.
Print Assumptions propagation_group.
(** There and back again. *)
Theorem propagation_back : forall (b : setup) (s : section) (F : vfield) (d : R), forall c q, read_ft b (run b s [SetFt F; Propagate d None; Propagate (- d) None]) c q = read_ft b (run b s [SetFt F]) c q.
Proof.
  intros b s F d c q. assert (total [Propagate d None; Propagate (- d) None] = 0%R) as T by (cbn; ring).
  rewrite (history_exact b s F [Propagate d None; Propagate (- d) None]) by first [left; exact T | repeat constructor]. rewrite (history_exact b s F []) by first [exact (Forall_nil _) | left; reflexivity]. rewrite T. reflexivity.
Qed.
Print Assumptions propagation_back.
(** The magnitude of the components does not change. *)
Theorem propagation_magnitude : forall (b : setup) (k : R) (s : section) (F : vfield) (l : list action),
  (0 < k)%R -> bk b = RtoC k -> section_grid (bgrid b) (baxis b) -> Forall homogeneous l ->
  forall c q, Cmod (read_ft b (run b s (SetFt F :: l)) c q) = Cmod (read_ft b (run b s [SetFt F]) c q).
Proof. intros b k s F l K BK G H c q. destruct (propagation_history b k s F l K BK G H) as (d & _ & E). rewrite E, Cmod_mult, cis_mod. apply Rmult_1_r. Qed.
Print Assumptions propagation_magnitude.
(** The axial wavenumber of the components that propagate makes them solutions of the wave equation. *)
Theorem propagation_dispersion : forall b k q, section_grid (bgrid b) (baxis b) -> propagates (bgrid b) (baxis b) k q ->
  (rsum 3 (fun c => wave_vector (bgrid b) (baxis b) k c q * wave_vector (bgrid b) (baxis b) k c q) = k * k)%R.
Proof. intros b k q G. exact (dispersion b k G q). Qed.
Print Assumptions propagation_dispersion.
(** A short distance is ignored, however large the wavenumber. *)
Theorem short_distance_refuted : forall b s F d, (Rabs d <= / 100000000)%R -> forall c q, read_ft b (run b s [SetFt F; Propagate d None]) c q = read_ft b (run b s [SetFt F]) c q.
Proof.
  intros b s F d D c q. rewrite (history_stale b s F [Propagate d None]); [|repeat constructor|cbn; rewrite Rplus_0_r; exact D].
  rewrite (history_stale b s F []) by first [exact (Forall_nil _) | cbn; rewrite Rabs_R0; lra]. reflexivity.
Qed.
Print Assumptions short_distance_refuted.

(** ** Space and spectrum *)
(** The field is the superposition of the plane waves of the spectrum, at the positions of the grid. *)
Theorem field_is_superposition : forall b s c p, section_grid (bgrid b) (baxis b) -> inside (bshape b) p -> (exists c' q, (c' < bcomp b)%nat /\ inside (bshape b) q /\ (/ 100000000 < Cmod (read_ft b s c' q))%R) ->
  read_field b s c p = to_space (bgrid b) (bfirst b) (read_ft b s c) p.
Proof. intros b s c p G Hp V. apply read_field_space; [exact G|exact Hp|left; exact V]. Qed.
Print Assumptions field_is_superposition.
(** A scalar field that is assigned is what is read. *)
Theorem field_assignment : forall b s f, section_grid (bgrid b) (baxis b) -> bcomp b = 1%nat -> bright (bshape b) (read_ft b (run b s [SetField f]) 0%nat) ->
  agree (bshape b) (read_field b (run b s [SetField f]) 0%nat) (f 0%nat).
Proof. intros b s f G One V. apply set_read; [exact G|exact One|left; exact V]. Qed.
Print Assumptions field_assignment.
Theorem spectrum_assignment : forall b s F c q, bcomp b = 1%nat -> read_ft b (run b s [SetFt F]) c q = F c q.
Proof. intros b s F c q One. rewrite (history_exact b s F []) by first [exact (Forall_nil _) | left; reflexivity]. cbn [total fold_right]. rewrite propagator_0, project_scalar by exact One. apply Cmult_1_r. Qed.
Print Assumptions spectrum_assignment.
(** Weak fields are read as zero, and are lost in a medium with structure. *)
Theorem weak_field_refuted : forall b s F d n, section_grid (bgrid b) (baxis b) -> bcomp b = 1%nat -> Exists (fun m => (1 < m)%nat) (bshape b) -> (0 < d)%R ->
  (forall q, inside (bshape b) q -> (Cmod (F 0%nat q) <= / 100000000)%R) -> (exists p, inside (bshape b) p /\ (/ 100000000 + / 100000 * Cmod (n [0; 0; 0]%nat) < Cmod (n p - n [0; 0; 0]%nat)%C)%R) ->
  forall p q, inside (bshape b) q -> read_field b (run b s [SetFt F]) 0%nat p = 0 /\ read_ft b (run b s [SetFt F; Propagate d (Some n)]) 0%nat q = 0.
Proof.
  intros b s F d n G One X D W N p q Hq. apply dark_lost; try assumption; [|apply uniform_false, N].
  unfold extended. apply existsb_exists. apply Exists_exists in X as (m & Hm & L). exists m. split; [exact Hm|]. apply Nat.ltb_lt, L.
Qed.
Print Assumptions weak_field_refuted.

(** ** Evanescent and longitudinal waves *)
(** Waves that do not propagate are kept, without attenuation. *)
Theorem evanescent_kept_refuted : forall (b : setup) (k : R) (s : section) (F : vfield) (l : list action) (c : nat) q,
  (0 < k)%R -> bk b = RtoC k -> section_grid (bgrid b) (baxis b) -> Forall homogeneous l -> bcomp b = 1%nat -> ~ propagates (bgrid b) (baxis b) k q -> read_ft b (run b s (SetFt F :: l)) c q = F c q.
Proof.
  intros b k s F l c q K BK G H One N. destruct (propagation_history b k s F l K BK G H) as (d & _ & E). rewrite E, evanescent_axial by exact N. rewrite Rmult_0_r, cis_0, spectrum_assignment by exact One. apply Cmult_1_r.
Qed.
Print Assumptions evanescent_kept_refuted.
(** Vector fields are transverse after any history of assignments, reading, and propagation in any medium. *)
Theorem field_transverse : forall (b : setup) (k : R) (s : section) (F : vfield) (l : list action),
  (0 < k)%R -> bk b = RtoC k -> section_grid (bgrid b) (baxis b) -> bcomp b = 3%nat -> transverse (bgrid b) (baxis b) k (read_ft b (run b s (SetFt F :: l))).
Proof. intros b k s F l K BK G Three. cbn [run fold_left act]. apply (run_transverse b k G K BK Three). apply (project_transverse b k G K BK Three). Qed.
Print Assumptions field_transverse.

(** ** Media *)
(** Slice after slice: transmission and diffraction. *)
Theorem beam_in_medium_partial : forall (b : setup) (k : R) (F : vfield) (first step : R) (media : list (option sfield)),
  section_grid (bgrid b) (baxis b) -> (0 < k)%R -> bk b = RtoC k -> bcomp b = 1%nat ->
  (0 < step)%R -> resolved step -> resolved (first - step) -> resolved first -> Forall (noticed (bgrid b) (bn b)) media ->
  let F0 := diffract (bgrid b) (baxis b) k (first - step) (F 0%nat) in
  let Fs := spectra (bgrid b) (bfirst b) (baxis b) k (bn b) step media F0 in
  Forall (bright (bshape b)) (F0 :: Fs) ->
  Forall2 (fun f F => agree (bshape b) (f 0%nat) (to_space (bgrid b) (bfirst b) F)) (fst (beam_field b (enter b (set_ft b F) first step) step media)) Fs.
Proof.
  intros b k F first step media G K BK One S R0 R1 R2 M F0 Fs V. apply beam_slices; try assumption. eapply Forall_impl; [|exact V]. intros f H. left. exact H.
Qed.
Print Assumptions beam_in_medium_partial.
(** Variations of the index below 1e-5 are ignored, however long the propagation. *)
Theorem weak_medium_refuted : forall b s d n, (forall p, inside (bshape b) p -> (Cmod (n p - n [0; 0; 0]%nat)%C <= / 100000000 + / 100000 * Cmod (n [0; 0; 0]%nat))%R) ->
  propagate b s d (Some n) = propagate b s d (Some (fun _ => n [0; 0; 0]%nat)).
Proof. intros b s d n. exact (weak_medium b s d n). Qed.
Print Assumptions weak_medium_refuted.
(** With steps of at most 1e-8, there is transmission but no diffraction, however many steps. *)
Theorem small_steps_refuted : forall (b : setup) (k : R) (F : vfield) (step : R) (media : list (option sfield)),
  section_grid (bgrid b) (baxis b) -> (0 < k)%R -> bk b = RtoC k -> bcomp b = 1%nat -> (0 < step <= / 100000000)%R ->
  Forall (fun m => exists n, m = Some n /\ exists p, inside (bshape b) p /\ (/ 100000000 + / 100000 * Cmod (n [0; 0; 0]%nat) < Cmod (n p - n [0; 0; 0]%nat)%C)%R) media ->
  let layers := fold_left (fun F m => match m with None => F | Some n => transmit (bgrid b) (bfirst b) (transmittance k (bn b) step n) F end) in
  (forall i, (i < length media)%nat -> bright (bshape b) (layers (firstn i media) (F 0%nat))) ->
  agree (bshape b) (read_ft b (traverse b (set_ft b F) step media) 0%nat) (layers media (F 0%nat)).
Proof.
  intros b k F step media G K BK One St M layers V. apply small_steps; try assumption.
  - cbn [set_ft field_hat]. rewrite project_scalar by exact One. intros q _. reflexivity.
  - cbn [set_ft pending]. rewrite Rabs_R0. lra.
  - eapply Forall_impl; [|exact M]. intros m (n & E & U). exists n. split; [exact E|]. apply uniform_false, U.
  - intros i Hi. left. apply V, Hi.
Qed.
Print Assumptions small_steps_refuted.
(** A negative distance undoes a positive one, in any medium, with loss or gain. *)
Theorem beam_time_reversal_partial : forall (b : setup) (k : R) (s : section) (F : vfield) (d : R) (n : sfield),
  section_grid (bgrid b) (baxis b) -> (0 < k)%R -> bk b = RtoC k -> bcomp b = 1%nat -> resolved d -> noticeable (bgrid b) (bn b) n ->
  bright (bshape b) (F 0%nat) -> bright (bshape b) (read_ft b (run b s [SetFt F; Propagate d (Some n)]) 0%nat) ->
  agree (bshape b) (read_ft b (run b s [SetFt F; Propagate d (Some n); Propagate (- d) (Some n)]) 0%nat) (F 0%nat).
Proof. intros b k s F d n G K BK One R N V V'. apply (reversal b k); try assumption; left; assumption. Qed.
Print Assumptions beam_time_reversal_partial.
(** So do the same distances and media in reverse order, after any number of slices. *)
Theorem beam_retraced_partial : forall (b : setup) (k : R) (s : section) (F : vfield) (l : list (R * option sfield)),
  section_grid (bgrid b) (baxis b) -> (0 < k)%R -> bk b = RtoC k -> bcomp b = 1%nat ->
  Forall (fun x => (0 < fst x)%R /\ resolved (fst x) /\ noticed (bgrid b) (bn b) (snd x)) l ->
  (forall i, (i <= length l)%nat -> bright (bshape b) (read_ft b (run b s (SetFt F :: there (firstn i l))) 0%nat)) ->
  agree (bshape b) (read_ft b (run b s (SetFt F :: there l ++ back_again l)) 0%nat) (F 0%nat).
Proof. intros b k s F l G K BK One A V. apply (retraced b k); try assumption. intros i Hi. left. apply V, Hi. Qed.
Print Assumptions beam_retraced_partial.
(** Media without gain do not increase the power, and media without loss conserve it. *)
Theorem power_in_medium_partial : forall (b : setup) (k : R) (s : section) (F : vfield) (d : R) (n : sfield),
  section_grid (bgrid b) (baxis b) -> (0 < k)%R -> bk b = RtoC k -> bcomp b = 1%nat -> (0 < d)%R -> resolved d -> noticeable (bgrid b) (bn b) n ->
  bright (bshape b) (F 0%nat) -> bright (bshape b) (read_ft b (run b s [SetFt F; Propagate d (Some n)]) 0%nat) -> (forall p, inside (bshape b) p -> (0 <= snd (n p / bn b)%C)%R) ->
  let before := norm2 (bshape b) (read_field b (run b s [SetFt F]) 0%nat) in
  let after := norm2 (bshape b) (read_field b (run b s [SetFt F; Propagate d (Some n)]) 0%nat) in
  (after <= before)%R /\ ((forall p, inside (bshape b) p -> snd (n p / bn b)%C = 0%R) -> after = before).
Proof. intros b k s F d n G K BK One D R N V V' A. apply (slice_power b k); try assumption; left; assumption. Qed.
Print Assumptions power_in_medium_partial.

(** Slice after slice of a vector beam: transmission, of which the transverse part is kept, and diffraction. *)
Theorem vector_beam_in_medium_partial : forall (b : setup) (k : R) (F : vfield) (first step : R) (media : list (option sfield)),
  section_grid (bgrid b) (baxis b) -> (0 < k)%R -> bk b = RtoC k -> bcomp b = 3%nat ->
  (0 < step)%R -> resolved step -> resolved (first - step) -> resolved first -> Forall (noticed (bgrid b) (bn b)) media ->
  let F0 := fun c => diffract (bgrid b) (baxis b) k (first - step) (transverse_part (bgrid b) (baxis b) k F c) in
  let Fs := vector_spectra (bgrid b) (bfirst b) (baxis b) k (bn b) step media F0 in
  Forall (bright_vector (bshape b)) (F0 :: Fs) ->
  Forall2 (fun f F => forall c, (c < 3)%nat -> agree (bshape b) (f c) (to_space (bgrid b) (bfirst b) (F c))) (fst (beam_field b (enter b (set_ft b F) first step) step media)) Fs.
Proof.
  intros b k F first step media G K BK Three S R0 R1 R2 M F0 Fs V. apply vbeam_slices; try assumption. eapply Forall_impl; [|exact V]. intros f H. left. exact H.
Qed.
Print Assumptions vector_beam_in_medium_partial.
(** Whatever the history, the thresholds and the initial state: no power is gained in passive media, nor on the way back through media without loss. *)
Theorem power_never_gained : forall (b : setup) (k : R) (s : section) (l : list action),
  section_grid (bgrid b) (baxis b) -> (0 < k)%R -> bk b = RtoC k -> bcomp b = 1%nat \/ bcomp b = 3%nat -> Forall (passive (bshape b) (bn b)) l ->
  (vnorm2 (bcomp b) (bshape b) (read_field b (run b s l)) <= vnorm2 (bcomp b) (bshape b) (read_field b s))%R /\
  (vnorm2 (bcomp b) (bshape b) (read_ft b (run b s l)) <= vnorm2 (bcomp b) (bshape b) (read_ft b s))%R.
Proof. intros b k s l G K BK N H. split; [apply (run_power_field b k) | apply (run_power_ft b k)]; assumption. Qed.
Print Assumptions power_never_gained.
(** All slices of a scalar beam in media without loss have the same power. *)
Theorem power_conserved_partial : forall (b : setup) (k : R) (F : vfield) (first step : R) (media : list (option sfield)),
  section_grid (bgrid b) (baxis b) -> (0 < k)%R -> bk b = RtoC k -> bcomp b = 1%nat ->
  (0 < step)%R -> resolved step -> resolved (first - step) -> resolved first -> Forall (noticed (bgrid b) (bn b)) media ->
  Forall (fun m => match m with None => True | Some n => forall p, inside (bshape b) p -> snd (n p / bn b)%C = 0%R end) media ->
  let F0 := diffract (bgrid b) (baxis b) k (first - step) (F 0%nat) in
  Forall (bright (bshape b)) (F0 :: spectra (bgrid b) (bfirst b) (baxis b) k (bn b) step media F0) ->
  Forall (fun f : vfield => norm2 (bshape b) (f 0%nat) = norm2 (bshape b) (to_space (bgrid b) (bfirst b) (F 0%nat))) (fst (beam_field b (enter b (set_ft b F) first step) step media)).
Proof.
  intros b k F first step media G K BK One S R0 R1 R2 M L F0 V. apply (beam_power b k); try assumption. eapply Forall_impl; [|exact V]. intros f H. left. exact H.
Qed.
Print Assumptions power_conserved_partial.

(** ** Beams in the background *)
(** Slice i is at position first + i step. *)
Theorem beam_positions : forall (b : setup) (k : R) (F : vfield) (first step : R) n,
  section_grid (bgrid b) (baxis b) -> (0 < k)%R -> bk b = RtoC k -> bcomp b = 1%nat -> (0 < step)%R -> resolved step -> resolved (first - step) -> resolved first -> bright (bshape b) (F 0%nat) ->
  Forall2 (fun f i => agree (bshape b) (f 0%nat) (to_space (bgrid b) (bfirst b) (diffract (bgrid b) (baxis b) k (first + INR i * step) (F 0%nat))))
    (fst (beam_field b (enter b (set_ft b F) first step) step (background n))) (seq 0 n).
Proof. intros b k F first step n G K BK One S R0 R1 R2 V. apply (beam_background b k); try assumption. left. exact V. Qed.
Print Assumptions beam_positions.
(** So it is for vector beams. *)
Theorem vector_beam_positions : forall (b : setup) (k : R) (F : vfield) (first step : R) n,
  section_grid (bgrid b) (baxis b) -> (0 < k)%R -> bk b = RtoC k -> bcomp b = 3%nat -> (0 < step)%R -> resolved step -> resolved (first - step) -> resolved first ->
  bright_vector (bshape b) (transverse_part (bgrid b) (baxis b) k F) ->
  Forall2 (fun f i => forall c, (c < 3)%nat -> agree (bshape b) (f c) (to_space (bgrid b) (bfirst b) (diffract (bgrid b) (baxis b) k (first + INR i * step) (transverse_part (bgrid b) (baxis b) k F c))))
    (fst (beam_field b (enter b (set_ft b F) first step) step (background n))) (seq 0 n).
Proof. intros b k F first step n G K BK Three S R0 R1 R2 V. apply (vbeam_background b k); try assumption. left. exact V. Qed.
Print Assumptions vector_beam_positions.
(** The second time, slice i is at first + (n + i) step. *)
Theorem beam_field_again_refuted : forall (b : setup) (k : R) (F : vfield) (first step : R) n,
  section_grid (bgrid b) (baxis b) -> (0 < k)%R -> bk b = RtoC k -> bcomp b = 1%nat -> (0 < step)%R -> resolved step -> resolved (first - step) -> resolved first -> bright (bshape b) (F 0%nat) -> (0 < n)%nat ->
  let s := snd (beam_field b (enter b (set_ft b F) first step) step (background n)) in
  Forall2 (fun f i => agree (bshape b) (f 0%nat) (to_space (bgrid b) (bfirst b) (diffract (bgrid b) (baxis b) k (first + INR (n + i) * step) (F 0%nat))))
    (fst (beam_field b s step (background n))) (seq 0 n).
Proof. intros b k F first step n G K BK One S R0 R1 R2 V N s. apply (beam_second b k); try assumption. left. exact V. Qed.
Print Assumptions beam_field_again_refuted.
(** All elements of the list of the sections show the last slice. *)
Theorem beam_sections_refuted : forall (b : setup) (k : R) (F : vfield) (first step : R) n,
  section_grid (bgrid b) (baxis b) -> (0 < k)%R -> bk b = RtoC k -> bcomp b = 1%nat -> resolved (first + (INR n - 1) * step) -> bright (bshape b) (F 0%nat) ->
  let sections := collected b (enter b (set_ft b F) first step) step (background n) in
  length sections = n /\ Forall (fun f => agree (bshape b) (f 0%nat) (to_space (bgrid b) (bfirst b) (diffract (bgrid b) (baxis b) k (first + (INR n - 1) * step) (F 0%nat)))) sections.
Proof.
  intros b k F first step n G K BK One R V sections. split; [unfold sections, collected, background; rewrite map_length; apply repeat_length|].
  apply Forall_forall. intros f Hf. apply in_map_iff in Hf as (m & <- & _). apply (exit_field b k); try assumption. left. exact V.
Qed.
Print Assumptions beam_sections_refuted.
(** The section at the exit is that at the last slice. *)
Theorem beam_exit : forall (b : setup) (k : R) (F : vfield) (first step : R) n,
  section_grid (bgrid b) (baxis b) -> (0 < k)%R -> bk b = RtoC k -> bcomp b = 1%nat -> resolved (first + (INR n - 1) * step) -> bright (bshape b) (F 0%nat) ->
  agree (bshape b) (read_field b (traverse b (enter b (set_ft b F) first step) step (background n)) 0%nat) (to_space (bgrid b) (bfirst b) (diffract (bgrid b) (baxis b) k (first + (INR n - 1) * step) (F 0%nat))).
Proof. intros b k F first step n G K BK One R V. apply (exit_field b k); try assumption. left. exact V. Qed.
Print Assumptions beam_exit.

(** ** The hypotheses can be met *)
Definition sheet : setup := {| bgrid := {| rshape := [1; 1; 3]%nat; rstep := [1%R; 0%R; 1%R] |}; bfirst := fun _ => 0%R; bk := RtoC 1; bn := RtoC 1; baxis := 0; bcomp := 1 |}.
Example sheet_grid : section_grid (bgrid sheet) (baxis sheet).
Proof. repeat split; try (cbn; lia); try (repeat constructor; lia). intros c Hc H. destruct c as [|[|[|]]]; cbn in *; lia || lra. Qed.
(** Two of its three components are evanescent. *)
Example sheet_evanescent : ~ propagates (bgrid sheet) (baxis sheet) 1 [0; 0; 1]%nat /\ propagates (bgrid sheet) (baxis sheet) 1 [0; 0; 0]%nat.
Proof.
  pose proof PI_RGT_0. pose proof PI2_1. unfold PI2 in *. unfold propagates, kt2. rewrite !rsum3. cbn [sheet bgrid baxis Nat.eqb]. unfold kvec, k_axis. cbn [rshape rstep nth]. change (k_index 1 0) with 0%Z. change (k_index 3 1) with 1%Z. change (k_index 3 0) with 0%Z.
  cbn [INR]. split; [|unfold Rdiv; rewrite !Rmult_0_r, !Rmult_0_l; lra].
  replace (2 * PI * 0 / (1 * 0))%R with 0%R by (unfold Rdiv; ring). replace (2 * PI * 1 / ((1 + 1 + 1) * 1))%R with (2 * PI / 3)%R by field. nra.
Qed.
(** A medium with structure, of which the transmittance over a distance of 2 pi is one. *)
Definition grating : sfield := fun p => if idx_eqb p [0; 0; 1]%nat then RtoC 2 else RtoC 1.
Example grating_noticeable : noticeable (bgrid sheet) (bn sheet) grating.
Proof.
  left. exists [0; 0; 1]%nat. split; [repeat constructor|]. unfold grating. cbn [idx_eqb list_eq_dec]. replace (idx_eqb [0; 0; 0]%nat [0; 0; 1]%nat) with false by reflexivity. replace (idx_eqb [0; 0; 1]%nat [0; 0; 1]%nat) with true by reflexivity.
  rewrite <- RtoC_minus, !Cmod_R, !Rabs_pos_eq; lra.
Qed.
Example grating_transmittance : forall p, transmittance 1 (bn sheet) (2 * PI) grating p = 1.
Proof.
  intros p. unfold transmittance, grating. cbv zeta. cbn [sheet bn].
  assert (forall x, Ci * RtoC 1 * (RtoC x / RtoC 1 - 1) * RtoC (2 * PI) = (0, 2 * PI * (x - 1))%R) as E.
  { intros x. unfold Cdiv. rewrite <- RtoC_inv, Rinv_1 by lra. unfold Ci, RtoC, Cmult, Cminus, Cplus, Copp. cbn. f_equal; ring. }
  destruct (idx_eqb p _); rewrite E; cbn [fst snd]; rewrite exp_0.
  - replace (2 * PI * (2 - 1))%R with (2 * PI * INR 1)%R by (cbn; ring). rewrite cis_2PI_nat. ring.
  - replace (2 * PI * (1 - 1))%R with 0%R by ring. rewrite cis_0. ring.
Qed.
Definition flat : vfield := fun _ _ => RtoC 1.
(** beam_in_medium_partial applies to three slices of this medium. *)
Example sheet_beam : Forall (noticed (bgrid sheet) (bn sheet)) (repeat (Some grating) 3) /\
  Forall (bright (bshape sheet)) (diffract (bgrid sheet) (baxis sheet) 1 (0 - 2 * PI) (flat 0%nat) :: spectra (bgrid sheet) (bfirst sheet) (baxis sheet) 1 (bn sheet) (2 * PI) (repeat (Some grating) 3) (diffract (bgrid sheet) (baxis sheet) 1 (0 - 2 * PI) (flat 0%nat))).
Proof.
  split; [apply Forall_forall; intros m Hm; apply repeat_spec in Hm; subst m; exact grating_noticeable|].
  assert (forall F, bright (bshape sheet) F -> bright (bshape sheet) (through (bgrid sheet) (bfirst sheet) (baxis sheet) 1 (bn sheet) (2 * PI) (Some grating) F)) as T.
  { intros F (q & Hq & H). exists q. split; [exact Hq|]. cbn [through]. unfold split_step, diffract. rewrite Cmod_mult, cis_mod, Rmult_1_r. unfold transmit.
    rewrite (to_spectrum_ext sheet _ (to_space (bgrid sheet) (bfirst sheet) F)) by (intros p _; rewrite grating_transmittance; ring). rewrite (spectrum_space sheet sheet_grid F q Hq). exact H. }
  assert (bright (bshape sheet) (diffract (bgrid sheet) (baxis sheet) 1 (0 - 2 * PI) (flat 0%nat))) as V.
  { exists [0; 0; 0]%nat. split; [repeat constructor|]. unfold diffract, flat. rewrite Cmod_mult, cis_mod, Cmod_1. lra. }
  cbn [repeat spectra]. cbv zeta. repeat (apply Forall_cons; [auto 6|]). apply Forall_nil.
Qed.
(** beam_retraced_partial applies to any number of slices of this medium. *)
Definition gratings (n : nat) : list (R * option sfield) := repeat ((2 * PI)%R, Some grating) n.
Example gratings_bright : forall s n, Forall (fun x => (0 < fst x)%R /\ resolved (fst x) /\ noticed (bgrid sheet) (bn sheet) (snd x)) (gratings n) /\
  forall i, (i <= length (gratings n))%nat -> bright (bshape sheet) (read_ft sheet (run sheet s (SetFt flat :: there (firstn i (gratings n)))) 0%nat).
Proof.
  intros s n. pose proof PI_RGT_0 as P. pose proof PI2_1 as P2. unfold PI2 in P2. assert (D : (0 < 2 * PI)%R) by lra.
  assert (A : forall n, Forall (fun x => (0 < fst x)%R /\ resolved (fst x) /\ noticed (bgrid sheet) (bn sheet) (snd x)) (gratings n)).
  { intros m. apply Forall_forall. intros x Hx. apply repeat_spec in Hx. subst x. split; [exact D|]. split; [right; cbn [fst]; rewrite Rabs_pos_eq; lra|exact grating_noticeable]. }
  split; [apply A|]. intros i Hi. unfold gratings in *. rewrite repeat_length in Hi. assert (firstn i (repeat ((2 * PI)%R, Some grating) n) = gratings i) as ->.
  { clear s P P2 D A. revert n Hi. induction i as [|i IH]; intros [|n] Hi; try reflexivity; [lia|]. cbn. f_equal. apply IH. lia. }
  change (run sheet s (SetFt flat :: there (gratings i))) with (forth sheet (set_ft sheet flat) (gratings i)).
  assert (L : forall i s0, (0 <= pending s0)%R -> resolved (pending s0) -> Cmod (wave sheet s0 0%nat [0; 0; 0]%nat) = 1%R -> Cmod (wave sheet (forth sheet s0 (gratings i)) 0%nat [0; 0; 0]%nat) = 1%R).
  { clear i n Hi s. induction i as [|i IH]; intros s P0 R0 W; [exact W|]. change (forth sheet s (gratings (Datatypes.S i))) with (forth sheet (propagate sheet s (2 * PI) (Some grating)) (gratings i)).
    assert (V : seen sheet (wave sheet s 0%nat)) by (left; exists [0; 0; 0]%nat; split; [repeat constructor|rewrite W; lra]).
    destruct (forth_pending sheet (gratings 1) s P0 R0 (A 1%nat)) as [Q0 Q1].
    destruct (slice_forward sheet 1 sheet_grid ltac:(lra) eq_refl eq_refl s (2 * PI) (Some grating) D R0 grating_noticeable V) as [E _].
    apply IH; [exact Q0|exact Q1|]. rewrite E by (repeat constructor). cbn [through]. unfold split_step, diffract. rewrite Cmod_mult, cis_mod, Rmult_1_r. unfold transmit.
    rewrite (to_spectrum_ext sheet _ (to_space (bgrid sheet) (bfirst sheet) (wave sheet s 0%nat))) by (intros p _; rewrite grating_transmittance; ring). rewrite (spectrum_space sheet sheet_grid _ _) by (repeat constructor). exact W. }
  exists [0; 0; 0]%nat. split; [repeat constructor|]. rewrite read_exact by (apply forth_pending; [apply Rle_refl|left; reflexivity|apply A]). rewrite L; [lra|apply Rle_refl|left; reflexivity|].
  unfold wave, set_ft. cbn [field_hat pending]. rewrite project_scalar, propagator_0 by reflexivity. unfold flat. rewrite Cmult_1_r, Cmod_1. reflexivity.
Qed.
(** The same call gives two different results. *)
Definition spot : setup := {| bgrid := {| rshape := [1; 1; 1]%nat; rstep := [1%R; 0%R; 0%R] |}; bfirst := fun _ => 0%R; bk := RtoC 1; bn := RtoC 1; baxis := 0; bcomp := 1 |}.
Example spot_twice : let s := enter spot (set_ft spot flat) 0 PI in
  map (fun f : vfield => f 0%nat [0; 0; 0]%nat) (fst (beam_field spot s PI (background 1))) = [RtoC 1] /\
  map (fun f : vfield => f 0%nat [0; 0; 0]%nat) (fst (beam_field spot (snd (beam_field spot s PI (background 1))) PI (background 1))) = [RtoC (-1)].
Proof.
  assert (section_grid (bgrid spot) (baxis spot)) as G. { repeat split; try (cbn; lia); try (repeat constructor; lia). intros c Hc H. destruct c as [|[|[|]]]; cbn in *; lia || lra. }
  pose proof PI_RGT_0 as P. pose proof PI2_1 as P2. unfold PI2 in P2.
  assert (resolved PI) as RP by (right; rewrite Rabs_pos_eq; lra).
  assert (resolved (0 - PI)) as RM by (right; unfold Rminus; rewrite Rplus_0_l, Rabs_Ropp, Rabs_pos_eq; lra).
  assert (resolved 0) as R0 by (left; reflexivity).
  assert (bright (bshape spot) (flat 0%nat)) as V by (exists [0; 0; 0]%nat; split; [repeat constructor|unfold flat; rewrite Cmod_1; lra]).
  assert (forall z, to_space (bgrid spot) (bfirst spot) (diffract (bgrid spot) (baxis spot) 1 z (flat 0%nat)) [0; 0; 0]%nat = cis z) as E.
  { intros z. rewrite (point_space spot G); [|reflexivity|repeat constructor]. unfold diffract, flat. rewrite Cmult_1_l. f_equal. unfold axial, kt2. rewrite rsum3. cbn [spot baxis bgrid Nat.eqb]. unfold kvec, k_axis. cbn [rshape rstep nth]. change (k_index 1 0) with 0%Z.
    replace (1 * 1 - _)%R with 1%R by (unfold Rdiv; ring). rewrite Rmax_right by lra. rewrite sqrt_1. ring. }
  cbv zeta. split.
  - pose proof (beam_positions spot 1 flat 0 PI 1 G Rlt_0_1 eq_refl eq_refl P RP RM R0 V) as H. destruct (fst _) as [|f l]; inversion H as [|? ? ? ? H1 H2]; subst. inversion H2; subst. cbn [map]. rewrite H1 by (repeat constructor). rewrite E. cbn [INR]. rewrite Rmult_0_l, Rplus_0_l, cis_0. reflexivity.
  - pose proof (beam_field_again_refuted spot 1 flat 0 PI 1 G Rlt_0_1 eq_refl eq_refl P RP RM R0 V Nat.lt_0_1) as H. cbv zeta in H. destruct (fst _) as [|f l]; inversion H as [|? ? ? ? H1 H2]; subst. inversion H2; subst. cbn [map]. rewrite H1 by (repeat constructor). rewrite E. cbn [INR Nat.add]. rewrite Rmult_1_l, Rplus_0_l. unfold cis. rewrite cos_PI, sin_PI. reflexivity.
Qed.

(** ** Vector beams lose power in structured media without loss *)
(** A transverse plane wave of unit amplitude, and a medium with a real index: eight ninths of the power is lost, *)
Theorem vector_power_refuted : exists b (F : vfield) n, section_grid (bgrid b) (baxis b) /\ bk b = RtoC 1 /\ bcomp b = 3%nat /\ transverse (bgrid b) (baxis b) 1 F /\ bright_vector (bshape b) F /\
  noticeable (bgrid b) (bn b) n /\ (forall p, snd (n p / bn b)%C = 0%R) /\
  forall s, (vnorm2 3 (bshape b) (read_ft b (run b s [SetFt F; Propagate 1 (Some n)])) = vnorm2 3 (bshape b) (read_ft b (run b s [SetFt F])) / 9)%R /\ (0 < vnorm2 3 (bshape b) (read_ft b (run b s [SetFt F])))%R.
Proof.
  exists sheet3, polarized, half_wave. refine (conj sheet3_grid (conj eq_refl (conj eq_refl (conj polarized_transverse (conj polarized_bright (conj half_wave_noticeable (conj half_wave_lossless _))))))).
  intros s. split; [exact (power_lost s)|]. destruct (before s) as [-> ->]. lra.
Qed.
Print Assumptions vector_power_refuted.
(** and does not come back. *)
Theorem vector_reversal_refuted : exists b (F : vfield) n, section_grid (bgrid b) (baxis b) /\ bk b = RtoC 1 /\ bcomp b = 3%nat /\ transverse (bgrid b) (baxis b) 1 F /\ bright_vector (bshape b) F /\
  noticeable (bgrid b) (bn b) n /\ (forall p, snd (n p / bn b)%C = 0%R) /\
  forall s, exists c q, (c < 3)%nat /\ inside (bshape b) q /\ read_ft b (run b s [SetFt F; Propagate 1 (Some n); Propagate (-1) (Some n)]) c q <> read_ft b (run b s [SetFt F]) c q.
Proof.
  exists sheet3, polarized, half_wave. refine (conj sheet3_grid (conj eq_refl (conj eq_refl (conj polarized_transverse (conj polarized_bright (conj half_wave_noticeable (conj half_wave_lossless not_reversed))))))).
Qed.
Print Assumptions vector_reversal_refuted.
(** A passive history in which the power does decrease, and a medium that absorbs. *)
Example passive_history : Forall (passive (bshape sheet3) (bn sheet3)) [Propagate 1 (Some half_wave); ReadFt; Propagate (-3) None; ReadField; Propagate 2 (Some (fun _ => (1, 1)%R))].
Proof.
  repeat apply Forall_cons; try apply Forall_nil; try exact I; intros p _; [rewrite half_wave_lossless; lra|]. cbn [sheet3 bn]. unfold Cdiv. rewrite <- RtoC_inv, Rinv_1 by lra. unfold RtoC, Cmult. cbn. lra.
Qed.
(** vector_beam_in_medium_partial applies to this beam and medium, with a first slice at 1. *)
Example sheet3_beam : let F0 := fun c => diffract (bgrid sheet3) (baxis sheet3) 1 (1 - 1) (transverse_part (bgrid sheet3) (baxis sheet3) 1 polarized c) in
  Forall (noticed (bgrid sheet3) (bn sheet3)) [Some half_wave] /\ Forall (bright_vector (bshape sheet3)) (F0 :: vector_spectra (bgrid sheet3) (bfirst sheet3) (baxis sheet3) 1 (bn sheet3) 1 [Some half_wave] F0).
Proof.
  intros F0. split; [constructor; [exact half_wave_noticeable|constructor]|].
  assert (forall c q, F0 c q = polarized c q) as E.
  { intros c q. unfold F0, diffract. rewrite part_transverse by exact polarized_transverse. rewrite Rminus_diag_eq, Rmult_0_l, cis_0 by reflexivity. ring. }
  constructor; [|constructor; [|constructor]]; exists 2%nat, [0; 0; 0]%nat; (split; [lia|]); (split; [repeat constructor|]).
  - rewrite E. unfold polarized. cbn [Nat.eqb andb]. replace (idx_eqb _ _) with true by reflexivity. rewrite Cmod_1. lra.
  - cbv zeta. unfold vector_through, diffract. rewrite Cmod_mult, cis_mod, Rmult_1_r. change (baxis sheet3) with 0%nat. rewrite part_axis by lia. cbn [Nat.eqb].
    rewrite (transmit_ext sheet3 _ _ (polarized 2%nat)) by (intros q _; apply E). change (Cmod (passed 2%nat [0; 0; 0]%nat) > / 100000000)%R. rewrite passed_axis, Cmod_R, Rabs_pos_eq; lra.
Qed.
