(** Interrupting an iteration: C174.  The library for the Fourier transforms, which arrays it can work on without a copy, and what it leaves in those that it may destroy are
    arbitrary; so is the statement that is interrupted, and what the work arrays hold then. *)
From Coq Require Import Reals Lra Lia List Arith ZArith Bool.
Require Import Verif.Base Verif.Num Verif.Grid_Model Verif.Grid_Spec Verif.Grid_Proofs Verif.Bound_Model Verif.Bound_Spec Verif.Entry_Model Verif.Entry_Spec Verif.Array_Glue.
Require Import Verif.Cplx Verif.CSum Verif.Field Verif.Fourier_Model Verif.Fourier_Spec Verif.Vec_Model Verif.Vec_Spec Verif.Vec_Proofs Verif.Solver_Model Verif.Solver_Spec Verif.Solver_Convergence Verif.Derived_Model Verif.Array_Model Verif.Array_Spec Verif.Material_Model Verif.Material_Spec Verif.Run_Model Verif.Run_Spec.
Require Import Verif.Whole_Model Verif.Whole_Spec Verif.Memory_Model Verif.Memory_Spec Verif.Memory_Sessions Verif.Interrupt_Model Verif.Interrupt_Spec Verif.Interrupt_Proofs Verif.Interrupt_Steps Verif.Interrupt_Results Verif.Interrupt_Refuted.
Import ListNotations.
Local Open Scope R_scope.
Local Open Scope C_scope.

(** The statements, when none is interrupted, are an iteration. *)
Theorem statements_iterate : forall lib aligned junk fresh m,
  finish (next_p lib aligned junk fresh) m = (snd (next_m lib aligned junk fresh m), fst (next_m lib aligned junk fresh m)).
Proof. exact next_finishes. Qed.
Print Assumptions statements_iterate.

(** C174.  Whatever a user did with a Solution, and wherever iterations were interrupted: each interruption was as if the iteration had not been started, apart from the count of iterations and the
    stored residue; or as if it had been completed; or the field is that after the iteration and the norm of the last update is not yet; unless the iteration was one whose update is refused. *)
Theorem interrupted_states : forall lib aligned junk u s l y, lived lib aligned junk u (start s) l y -> past u s (happenings l) (solution_of (now y)).
Proof. intros lib aligned junk u s l y H. exact (proj2 (lived_past lib aligned junk u s l y H)). Qed.
Print Assumptions interrupted_states.

(** C174.  The properties that are read afterwards are those of that Solution ... *)
Theorem interrupted_reads : forall lib aligned junk u s l y g, lived lib aligned junk u (start s) l y ->
  match value u g (solution_of (now y)) with
  | Ok v => array (deed_m lib aligned junk u y (Read g)) (obtained y) = Some v
  | Err e => snd (read_m lib aligned junk u g (now y)) = Err e /\ got (deed_m lib aligned junk u y (Read g)) = got y
  end.
Proof. exact lived_reads. Qed.
Print Assumptions interrupted_reads.
(** ... and arrays that were obtained before do not change, except the shared one of C50. *)
Theorem interrupted_arrays_kept : forall lib aligned junk u s l y fresh m k a, lived lib aligned junk u (start s) l y -> interruption lib aligned junk fresh (now y) m ->
  nth_error (got y) k = Some a -> a <> Buffer -> array {| now := m; got := got y |} k = array y k.
Proof. exact cut_arrays. Qed.
Print Assumptions interrupted_arrays_kept.

(** C174.  In a medium without gain no update is refused, however often iterations were interrupted: each iteration changes E as the first one after assigning E does, unless the last change
    was exactly zero. *)
Theorem interrupted_iterates : forall u eps settled thick q g crd v k0 m src t chi,
  (0 < eps)%R -> (2 * eps <= 1)%R -> (0 < m)%R -> (800 * sqrt eps * (m * m) < 1)%R -> (0 < c_light u)%R ->
  q_grid q = AGrid g -> Entry_Spec.spatial g -> (v = true -> (ndim RN g <= 3)%nat) -> (forall i, (i < ndim RN g)%nat -> coordinates g i = Ok (crd i)) ->
  q_xi q = GivenArray (number 0) -> q_zeta q = GivenArray (number 0) -> q_mu q = GivenArray (number (RtoC m)) -> asked_wavenumber u q k0 -> k0 <> 0%R -> asked_kind g q v -> asked_source u g crd k0 q v src ->
  asked_medium g crd q t -> asked_boundary g q chi -> fits v t ->
  let n := (if v then 3 else 1)%nat in
  (forall S : vfield, exists E, wave_equation v (sampled g) k0 (/ m) (plus_isotropic t chi) E S) -> absorbs n (points_of g) (plus_isotropic t chi) 0 ->
  exists s0, new_solution u eps settled thick q = Ok s0 /\ forall l s fresh, past u s0 l s -> List.Forall keeps_material (completed l) ->
    ~ refuses s /\ (prev_norm s = Fin 0 \/ snd (next fresh s) = None /\ Run_Spec.change s (fst (next fresh s)) = attempt s).
Proof. exact in_iterates. Qed.
Print Assumptions interrupted_iterates.

(** C174.  If there is a source, then solve still returns when a limit is reached, with the exceptions of C163 ... *)
Theorem interrupted_ends_partial : forall (W : Type) u eps settled thick q g crd v k0 m src t chi,
  (0 < eps)%R -> (2 * eps <= 1)%R -> (0 < m)%R -> (800 * sqrt eps * (m * m) < 1)%R -> (0 < c_light u)%R ->
  q_grid q = AGrid g -> Entry_Spec.spatial g -> (v = true -> (ndim RN g <= 3)%nat) -> (forall i, (i < ndim RN g)%nat -> coordinates g i = Ok (crd i)) ->
  q_xi q = GivenArray (number 0) -> q_zeta q = GivenArray (number 0) -> q_mu q = GivenArray (number (RtoC m)) -> asked_wavenumber u q k0 -> k0 <> 0%R -> asked_kind g q v -> asked_source u g crd k0 q v src ->
  asked_medium g crd q t -> asked_boundary g q chi -> fits v t ->
  let n := (if v then 3 else 1)%nat in
  (forall S : vfield, exists E, wave_equation v (sampled g) k0 (/ m) (plus_isotropic t chi) E S) -> absorbs n (points_of g) (plus_isotropic t chi) 0 ->
  exists s0, new_solution u eps settled thick q = Ok s0 /\ forall l s rtol maxiter (w : W), past u s0 l s -> List.Forall keeps_material (completed l) ->
    let now := last_source u k0 (completed l) src in
    (exists c p, (c < n)%nat /\ CSum.inside (points_of g) p /\ now c p <> 0) -> (0 < rtol)%R ->
    exists fuel s', (solve_method fuel s NoneGiven rtol maxiter w = Some (Returned w s') /\ limit_reached maxiter rtol s') \/
      (solve_method fuel s NoneGiven rtol maxiter w = Some (Raised w s' ZeroDivisionError) /\ (vagree n (points_of g) (get_E s') (fun _ _ => 0) \/ previous_update_norm s = Fin 0)).
Proof. exact @in_ends. Qed.
Print Assumptions interrupted_ends_partial.
(** ... and in a medium that absorbs, what it returns is the solution for the source that was assigned last, up to the tolerance times a constant that depends on neither the source nor the
    interruptions. *)
Theorem interrupted_accurate : forall (W : Type) u eps settled thick q g crd v k0 m src t chi,
  (0 < eps)%R -> (2 * eps <= 1)%R -> (0 < m)%R -> (800 * sqrt eps * (m * m) < 1)%R -> (0 < c_light u)%R ->
  q_grid q = AGrid g -> Entry_Spec.spatial g -> (v = true -> (ndim RN g <= 3)%nat) -> (forall i, (i < ndim RN g)%nat -> coordinates g i = Ok (crd i)) ->
  q_xi q = GivenArray (number 0) -> q_zeta q = GivenArray (number 0) -> q_mu q = GivenArray (number (RtoC m)) -> asked_wavenumber u q k0 -> k0 <> 0%R -> asked_kind g q v -> asked_source u g crd k0 q v src ->
  asked_medium g crd q t -> asked_boundary g q chi -> fits v t ->
  let n := (if v then 3 else 1)%nat in
  forall loss, (0 < loss)%R -> absorbs n (points_of g) (plus_isotropic t chi) loss ->
  exists s0 K, new_solution u eps settled thick q = Ok s0 /\ forall l s, past u s0 l s -> List.Forall keeps_material (completed l) -> let now := last_source u k0 (completed l) src in
    exists E, wave_equation v (sampled g) k0 (/ m) (plus_isotropic t chi) E now /\
      (forall E', wave_equation v (sampled g) k0 (/ m) (plus_isotropic t chi) E' now -> vagree n (points_of g) E' E) /\
      forall rtol fuel (w w' : W) s', (0 < rtol)%R -> (exists c p, (c < n)%nat /\ CSum.inside (points_of g) p /\ now c p <> 0) ->
        solve_method fuel s NoneGiven rtol None w = Some (Returned w' s') -> (magnitude s' (fun c p => get_E s' c p - E c p)%C <= K * rtol * magnitude s' (get_E s'))%R.
Proof. exact @in_accurate. Qed.
Print Assumptions interrupted_accurate.

(** C174.  But if the update is refused, then an interruption can leave a Solution for another problem: the source is two thirds of what it was, and E and epsilon are as they were. *)
Theorem interrupted_refuted : forall lib aligned junk u s l y fresh, lived lib aligned junk u (start s) l y -> refuses (solution_of (now y)) -> snd (o_alpha (operators (solution_of (now y)))) <> 0%R ->
  exists m', interruption lib aligned junk fresh (now y) m' /\ get_E (solution_of m') = get_E (solution_of (now y)) /\ get_epsilon (solution_of m') = get_epsilon (solution_of (now y)) /\
    prev_norm (solution_of m') = prev_norm (solution_of (now y)) /\ forall c p, get_source (solution_of m') c p = RtoC (2 / 3) * get_source (solution_of (now y)) c p.
Proof.
  intros lib aligned junk u s l y fresh H. destruct (lived_past lib aligned junk u s l y H) as (Hs & _).
  exact (refused_source lib aligned junk (held y) fresh (now y) (o_safe y Hs) (or_introl eq_refl) (or_intror (or_introl eq_refl))).
Qed.
Print Assumptions interrupted_refuted.
(** Such a Solution: one point with gain, after one iteration. *)
Example refused_case : refuses (fst (next true driven_start)) /\ snd (o_alpha (operators (fst (next true driven_start)))) <> 0%R /\ get_source (fst (next true driven_start)) 0%nat [0%nat] <> 0.
Proof. exact driven_refused. Qed.
Example refused_lived : forall lib aligned junk u, exists y, lived lib aligned junk u (start driven_start) [Deed (Do (ONext true))] y /\ solution_of (now y) = fst (next true driven_start).
Proof.
  intros lib aligned junk u. exists (deed_m lib aligned junk u (start driven_start) (Do (ONext true))). split.
  - apply (lived_deed lib aligned junk u (start driven_start) [] (start driven_start) (Do (ONext true))). constructor.
  - exact (me_refines lib aligned junk u driven_start [Do (ONext true)]).
Qed.
(** An interruption between the last two statements of the first iteration of any Solution. *)
Example interrupted_case : forall lib aligned junk s, prev_norm s = Inf ->
  exists m', interruption lib aligned junk true (now (start s)) m' /\ field (solution_of m') = next_field (operators s) (field s) /\ prev_norm (solution_of m') = Inf.
Proof.
  intros lib aligned junk s H. pose proof (accepted_field lib aligned junk (held (start s)) true (now (start s)) (o_safe _ (me_sound_start s)) (or_introl eq_refl) (or_intror (or_introl eq_refl))) as Q.
  rewrite (me_solution_start s) in Q. exact (Q H).
Qed.
