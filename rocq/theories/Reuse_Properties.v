(** A Solution can be used again: C163. *)
From Coq Require Import Reals Lra Lia List Arith ZArith Bool.
Require Import Verif.Base Verif.Num Verif.Grid_Model Verif.Grid_Spec Verif.Grid_Proofs Verif.Bound_Model Verif.Bound_Spec Verif.Entry_Model Verif.Entry_Spec Verif.Array_Glue.
Require Import Verif.Cplx Verif.CSum Verif.Field Verif.Fourier_Model Verif.Fourier_Spec Verif.Vec_Model Verif.Vec_Spec Verif.Vec_Proofs Verif.Solver_Model Verif.Solver_Spec Verif.Solver_Convergence Verif.Derived_Model Verif.Array_Model Verif.Array_Spec Verif.Material_Model Verif.Material_Spec Verif.Run_Model Verif.Run_Spec.
Require Import Verif.Whole_Model Verif.Whole_Spec Verif.Reuse_Proofs.
Import ListNotations.
Local Open Scope R_scope.
Local Open Scope C_scope.

(** C163.  Whatever was done with a Solution before: iterations, also those of earlier calls of solve, assignments of E, of the source, and of the current density,
    and reads of the residue.  If there is a source now, then solve returns when a limit is reached, unless the field is exactly zero everywhere after some iteration or
    the last change before the call was exactly zero. *)
Theorem reuse_ends_partial : forall (W : Type) u eps settled thick q g crd v k0 m src t chi,
  (0 < eps)%R -> (2 * eps <= 1)%R -> (0 < m)%R -> (800 * sqrt eps * (m * m) < 1)%R -> (0 < c_light u)%R ->
  q_grid q = AGrid g -> Entry_Spec.spatial g -> (v = true -> (ndim RN g <= 3)%nat) -> (forall i, (i < ndim RN g)%nat -> coordinates g i = Ok (crd i)) ->
  q_xi q = GivenArray (number 0) -> q_zeta q = GivenArray (number 0) -> q_mu q = GivenArray (number (RtoC m)) -> asked_wavenumber u q k0 -> k0 <> 0%R -> asked_kind g q v -> asked_source u g crd k0 q v src ->
  asked_medium g crd q t -> asked_boundary g q chi -> fits v t ->
  let n := (if v then 3 else 1)%nat in
  (forall S : vfield, exists E, wave_equation v (sampled g) k0 (/ m) (plus_isotropic t chi) E S) -> absorbs n (points_of g) (plus_isotropic t chi) 0 ->
  exists s0, new_solution u eps settled thick q = Ok s0 /\ forall l rtol maxiter (w : W), List.Forall keeps_material l ->
    let s := history u l s0 in let now := last_source u k0 l src in
    (exists c p, (c < n)%nat /\ CSum.inside (points_of g) p /\ now c p <> 0) -> (0 < rtol)%R ->
    exists fuel s', (solve_method fuel s NoneGiven rtol maxiter w = Some (Returned w s') /\ limit_reached maxiter rtol s') \/
      (solve_method fuel s NoneGiven rtol maxiter w = Some (Raised w s' ZeroDivisionError) /\ (vagree n (points_of g) (get_E s') (fun _ _ => 0) \/ previous_update_norm s = Fin 0)).
Proof. exact @re_ends. Qed.
Print Assumptions reuse_ends_partial.

(** C163.  If the medium absorbs everywhere, then what solve returns is the only solution for the source that was assigned last, up to the tolerance times a constant
    that depends neither on that source nor on what was done before. *)
Theorem reuse_accurate : forall (W : Type) u eps settled thick q g crd v k0 m src t chi,
  (0 < eps)%R -> (2 * eps <= 1)%R -> (0 < m)%R -> (800 * sqrt eps * (m * m) < 1)%R -> (0 < c_light u)%R ->
  q_grid q = AGrid g -> Entry_Spec.spatial g -> (v = true -> (ndim RN g <= 3)%nat) -> (forall i, (i < ndim RN g)%nat -> coordinates g i = Ok (crd i)) ->
  q_xi q = GivenArray (number 0) -> q_zeta q = GivenArray (number 0) -> q_mu q = GivenArray (number (RtoC m)) -> asked_wavenumber u q k0 -> k0 <> 0%R -> asked_kind g q v -> asked_source u g crd k0 q v src ->
  asked_medium g crd q t -> asked_boundary g q chi -> fits v t ->
  let n := (if v then 3 else 1)%nat in
  forall loss, (0 < loss)%R -> absorbs n (points_of g) (plus_isotropic t chi) loss ->
  exists s0 K, new_solution u eps settled thick q = Ok s0 /\ forall l, List.Forall keeps_material l -> let now := last_source u k0 l src in
    exists E, wave_equation v (sampled g) k0 (/ m) (plus_isotropic t chi) E now /\
      (forall E', wave_equation v (sampled g) k0 (/ m) (plus_isotropic t chi) E' now -> vagree n (points_of g) E' E) /\
      forall rtol fuel (w w' : W) s', (0 < rtol)%R -> (exists c p, (c < n)%nat /\ CSum.inside (points_of g) p /\ now c p <> 0) ->
        solve_method fuel (history u l s0) NoneGiven rtol None w = Some (Returned w' s') -> (magnitude s' (fun c p => get_E s' c p - E c p)%C <= K * rtol * magnitude s' (get_E s'))%R.
Proof. exact @re_accurate. Qed.
Print Assumptions reuse_accurate.

(** C163.  In a medium without gain no update is ever refused, whatever was done before: each iteration changes E as the first one after assigning E does, unless the last
    change was exactly zero; E is a solution for the source that was assigned last then. *)
Theorem reuse_iterates : forall u eps settled thick q g crd v k0 m src t chi,
  (0 < eps)%R -> (2 * eps <= 1)%R -> (0 < m)%R -> (800 * sqrt eps * (m * m) < 1)%R -> (0 < c_light u)%R ->
  q_grid q = AGrid g -> Entry_Spec.spatial g -> (v = true -> (ndim RN g <= 3)%nat) -> (forall i, (i < ndim RN g)%nat -> coordinates g i = Ok (crd i)) ->
  q_xi q = GivenArray (number 0) -> q_zeta q = GivenArray (number 0) -> q_mu q = GivenArray (number (RtoC m)) -> asked_wavenumber u q k0 -> k0 <> 0%R -> asked_kind g q v -> asked_source u g crd k0 q v src ->
  asked_medium g crd q t -> asked_boundary g q chi -> fits v t ->
  let n := (if v then 3 else 1)%nat in
  (forall S : vfield, exists E, wave_equation v (sampled g) k0 (/ m) (plus_isotropic t chi) E S) -> absorbs n (points_of g) (plus_isotropic t chi) 0 ->
  exists s0, new_solution u eps settled thick q = Ok s0 /\ forall l fresh, List.Forall keeps_material l -> let s := history u l s0 in
    (previous_update_norm s = Fin 0 /\ snd (next fresh s) = Some ZeroDivisionError /\ get_E (fst (next fresh s)) = get_E s /\
     wave_equation v (sampled g) k0 (/ m) (plus_isotropic t chi) (get_E s) (last_source u k0 l src)) \/
    (snd (next fresh s) = None /\ change s (fst (next fresh s)) = attempt s /\ previous_update_norm (fst (next fresh s)) = Fin (attempt s)).
Proof. exact re_history. Qed.
Print Assumptions reuse_iterates.

(** C163.  After switching the source off, the solution is zero everywhere, but if E is not zero yet then solve never returns, unless the number of iterations is limited or the
    tolerance is large. *)
Theorem reuse_refuted : forall (W : Type) u eps settled thick q g crd v k0 m src t chi,
  (0 < eps)%R -> (2 * eps <= 1)%R -> (0 < m)%R -> (800 * sqrt eps * (m * m) < 1)%R -> (0 < c_light u)%R ->
  q_grid q = AGrid g -> Entry_Spec.spatial g -> (v = true -> (ndim RN g <= 3)%nat) -> (forall i, (i < ndim RN g)%nat -> coordinates g i = Ok (crd i)) ->
  q_xi q = GivenArray (number 0) -> q_zeta q = GivenArray (number 0) -> q_mu q = GivenArray (number (RtoC m)) -> asked_wavenumber u q k0 -> k0 <> 0%R -> asked_kind g q v -> asked_source u g crd k0 q v src ->
  asked_medium g crd q t -> asked_boundary g q chi -> fits v t ->
  let n := (if v then 3 else 1)%nat in
  forall loss, (0 < loss)%R -> absorbs n (points_of g) (plus_isotropic t chi) loss ->
  exists s0 tol, new_solution u eps settled thick q = Ok s0 /\ (0 < tol)%R /\ forall l, List.Forall keeps_material l -> let s := history u l s0 in
    vagree n (points_of g) (last_source u k0 l src) (fun _ _ => 0) -> (exists c p, (c < n)%nat /\ CSum.inside (points_of g) p /\ get_E s c p <> 0) ->
    forall rtol fuel (w w' : W) s', (0 < rtol < tol)%R -> solve_method fuel s NoneGiven rtol None w <> Some (Returned w' s').
Proof. exact @re_never. Qed.
Print Assumptions reuse_refuted.

(** The other hypotheses are those of C149; the medium hypothesis of the first and third theorem is implied by that of the second.  Such histories: three iterations, a new source,
    two iterations, a new current density, with a read of the residue and an assignment of E; and switching off. *)
Example reuse_history : forall u k0 (A B J E : vfield),
  let l := [ONext true; ONext false; ONext false; OReadResidue; OSetSource B; ONext true; ONext false; OSetJ J; OSetIteration 0; OSetE E; ONext true] in
  List.Forall keeps_material l /\ (forall c p, last_source u k0 l A c p = - Ci * RtoC (k0 * c_light u * mu_0 u) * J c p) /\
  List.Forall keeps_material (l ++ [OSetSource (fun _ _ => 0)]) /\ (forall c p, last_source u k0 (l ++ [OSetSource (fun _ _ => 0)]) A c p = 0).
Proof.
  intros u k0 A B J E l. refine (conj _ (conj _ (conj _ _))).
  - repeat (constructor; [exact I|]); constructor.
  - intros c p. cbn. ring.
  - repeat (constructor; [exact I|]); constructor.
  - reflexivity.
Qed.
