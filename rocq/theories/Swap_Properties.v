(** Assigning the permittivity and solving again: C165. *)
From Coq Require Import Reals Lra Lia List Arith ZArith Bool.
Require Import Verif.Base Verif.Num Verif.Grid_Model Verif.Grid_Spec Verif.Grid_Proofs Verif.Bound_Model Verif.Bound_Spec Verif.Entry_Model Verif.Entry_Spec Verif.Array_Glue.
Require Import Verif.Cplx Verif.CSum Verif.Field Verif.Fourier_Model Verif.Fourier_Spec Verif.Vec_Model Verif.Vec_Spec Verif.Vec_Proofs Verif.Solver_Model Verif.Solver_Spec Verif.Solver_Convergence Verif.Derived_Model Verif.Array_Model Verif.Array_Spec Verif.Material_Model Verif.Material_Spec Verif.Run_Model Verif.Run_Spec.
Require Import Verif.Whole_Model Verif.Whole_Spec Verif.Swap_Model Verif.Swap_Spec Verif.Swap_Proofs.
Import ListNotations.
Local Open Scope R_scope.
Local Open Scope C_scope.

(** C165.  Without a bound, whatever was done with a Solution before, including assignments of other permittivities: after assigning a permittivity that absorbs everywhere, and
    whatever is done after that but for assigning another, solve returns the only solution for that permittivity and for the source that was assigned last, up to the tolerance times a
    constant that depends neither on that source nor on what was done. *)
Theorem swap_accurate_partial : forall (W : Type) u eps settled thick q g crd v k0 m src t,
  (0 < eps)%R -> (2 * eps <= 1)%R -> (0 < m)%R -> (800 * sqrt eps * (m * m) < 1)%R -> (0 < c_light u)%R ->
  q_grid q = AGrid g -> Entry_Spec.spatial g -> (v = true -> (ndim RN g <= 3)%nat) -> (forall i, (i < ndim RN g)%nat -> coordinates g i = Ok (crd i)) ->
  q_xi q = GivenArray (number 0) -> q_zeta q = GivenArray (number 0) -> q_mu q = GivenArray (number (RtoC m)) -> asked_wavenumber u q k0 -> k0 <> 0%R -> asked_kind g q v -> asked_source u g crd k0 q v src ->
  asked_medium g crd q t -> q_bound q = None -> fits v t ->
  let n := (if v then 3 else 1)%nat in
  admissible v (sampled g) k0 m t ->
  forall e settled' loss, fits v e -> (0 < loss)%R -> absorbs n (points_of g) e loss ->
  exists s0 K, new_solution u eps settled thick q = Ok s0 /\ forall l1 l2, List.Forall (admissible_step v (sampled g) k0 m (fun _ => 0)) l1 -> List.Forall keeps_material l2 ->
    let s := history u l2 (assign_epsilon eps (sampled g) thick (steps u eps (sampled g) thick l1 s0) e settled') in let now := last_source u k0 l2 (latest_source u k0 l1 src) in
    exists E, wave_equation v (sampled g) k0 (/ m) e E now /\ (forall E', wave_equation v (sampled g) k0 (/ m) e E' now -> vagree n (points_of g) E' E) /\
      forall rtol fuel (w w' : W) s', (0 < rtol)%R -> (exists c p, (c < n)%nat /\ CSum.inside (points_of g) p /\ now c p <> 0) ->
        solve_method fuel s NoneGiven rtol None w = Some (Returned w' s') -> (magnitude s' (fun c p => get_E s' c p - E c p)%C <= K * rtol * magnitude s' (get_E s'))%R.
Proof. exact sn_accurate. Qed.
Print Assumptions swap_accurate_partial.

(** C165.  In media without gain in which every source has a field, also without absorption, solve returns when a limit is reached, unless the field is exactly zero everywhere after some
    iteration or the last change before the call was exactly zero. *)
Theorem swap_ends_partial : forall (W : Type) u eps settled thick q g crd v k0 m src t,
  (0 < eps)%R -> (2 * eps <= 1)%R -> (0 < m)%R -> (800 * sqrt eps * (m * m) < 1)%R -> (0 < c_light u)%R ->
  q_grid q = AGrid g -> Entry_Spec.spatial g -> (v = true -> (ndim RN g <= 3)%nat) -> (forall i, (i < ndim RN g)%nat -> coordinates g i = Ok (crd i)) ->
  q_xi q = GivenArray (number 0) -> q_zeta q = GivenArray (number 0) -> q_mu q = GivenArray (number (RtoC m)) -> asked_wavenumber u q k0 -> k0 <> 0%R -> asked_kind g q v -> asked_source u g crd k0 q v src ->
  asked_medium g crd q t -> q_bound q = None -> fits v t ->
  let n := (if v then 3 else 1)%nat in
  admissible v (sampled g) k0 m t ->
  forall e settled', fits v e -> admissible v (sampled g) k0 m e ->
  exists s0, new_solution u eps settled thick q = Ok s0 /\ forall l1 l2 rtol maxiter (w : W), List.Forall (admissible_step v (sampled g) k0 m (fun _ => 0)) l1 -> List.Forall keeps_material l2 ->
    let s := history u l2 (assign_epsilon eps (sampled g) thick (steps u eps (sampled g) thick l1 s0) e settled') in let now := last_source u k0 l2 (latest_source u k0 l1 src) in
    (exists c p, (c < n)%nat /\ CSum.inside (points_of g) p /\ now c p <> 0) -> (0 < rtol)%R ->
    exists fuel s', (solve_method fuel s NoneGiven rtol maxiter w = Some (Returned w s') /\ limit_reached maxiter rtol s') \/
      (solve_method fuel s NoneGiven rtol maxiter w = Some (Raised w s' ZeroDivisionError) /\ (vagree n (points_of g) (get_E s') (fun _ _ => 0) \/ previous_update_norm s = Fin 0)).
Proof. exact sn_ends. Qed.
Print Assumptions swap_ends_partial.

(** C165.  With an absorbing bound, what solve returns after assigning a permittivity is the solution with the susceptibility of the bound subtracted from that permittivity.  Where the
    bound has a susceptibility and the field is not zero that is not the solution with the susceptibility added, as for a new Solution. *)
Theorem swap_bound_refuted : forall (W : Type) u eps settled thick q g crd v k0 m src t chi,
  (0 < eps)%R -> (2 * eps <= 1)%R -> (0 < m)%R -> (800 * sqrt eps * (m * m) < 1)%R -> (0 < c_light u)%R ->
  q_grid q = AGrid g -> Entry_Spec.spatial g -> (v = true -> (ndim RN g <= 3)%nat) -> (forall i, (i < ndim RN g)%nat -> coordinates g i = Ok (crd i)) ->
  q_xi q = GivenArray (number 0) -> q_zeta q = GivenArray (number 0) -> q_mu q = GivenArray (number (RtoC m)) -> asked_wavenumber u q k0 -> k0 <> 0%R -> asked_kind g q v -> asked_source u g crd k0 q v src ->
  asked_medium g crd q t -> asked_boundary g q chi -> fits v t ->
  let n := (if v then 3 else 1)%nat in
  admissible v (sampled g) k0 m (plus_isotropic t chi) ->
  forall e settled' loss, fits v e -> (0 < loss)%R -> absorbs n (points_of g) (minus_isotropic e chi) loss ->
  exists s0 K, new_solution u eps settled thick q = Ok s0 /\ forall l1 l2, List.Forall (admissible_step v (sampled g) k0 m chi) l1 -> List.Forall keeps_material l2 ->
    let s := history u l2 (assign_epsilon eps (sampled g) thick (steps u eps (sampled g) thick l1 s0) e settled') in let now := last_source u k0 l2 (latest_source u k0 l1 src) in
    exists E, wave_equation v (sampled g) k0 (/ m) (minus_isotropic e chi) E now /\ (forall E', wave_equation v (sampled g) k0 (/ m) (minus_isotropic e chi) E' now -> vagree n (points_of g) E' E) /\
      (forall c p, (c < n)%nat -> CSum.inside (points_of g) p -> chi p <> 0 -> E c p <> 0 -> ~ wave_equation v (sampled g) k0 (/ m) (plus_isotropic e chi) E now) /\
      forall rtol fuel (w w' : W) s', (0 < rtol)%R -> (exists c p, (c < n)%nat /\ CSum.inside (points_of g) p /\ now c p <> 0) ->
        solve_method fuel s NoneGiven rtol None w = Some (Returned w' s') -> (magnitude s' (fun c p => get_E s' c p - E c p)%C <= K * rtol * magnitude s' (get_E s'))%R.
Proof. exact sb_accurate. Qed.
Print Assumptions swap_bound_refuted.

(** The hypotheses on the request are those of C149, without or with a bound.  Media that absorb everywhere are admissible; hence so is this history: iterate, assign a permittivity,
    iterate, assign a source, assign another permittivity. *)
Example swap_history : forall eps g v k0 m e e' loss (A B : vfield) x y u, (0 < eps)%R -> (2 * eps <= 1)%R -> (0 < m)%R -> (800 * sqrt eps * (m * m) < 1)%R -> Entry_Spec.spatial g -> (v = true -> (ndim RN g <= 3)%nat) -> k0 <> 0%R ->
  fits v e -> fits v e' -> (0 < loss)%R -> absorbs (if v then 3 else 1) (points_of g) e loss -> absorbs (if v then 3 else 1) (points_of g) e' loss ->
  admissible v (sampled g) k0 m e /\
  let l := [Do (ONext true); Do (ONext false); Assign e x; Do (ONext true); Do (OSetSource B); Assign e' y] in
  List.Forall (admissible_step v (sampled g) k0 m (fun _ => 0)) l /\ latest_source u k0 l A = B.
Proof.
  intros eps g v k0 m e e' loss A B x y u He H1 Hm Hq Hg Hdim Hk0 Hf Hf' Hl Hab Hab'.
  pose proof (absorbing_media_admissible eps g v k0 m e loss He H1 Hm Hq Hg Hdim Hk0 Hf Hl Hab) as Q.
  pose proof (absorbing_media_admissible eps g v k0 m e' loss He H1 Hm Hq Hg Hdim Hk0 Hf' Hl Hab') as Q'.
  pose proof (admissible_agree v (sampled g) k0 m _ e (Whole_Results.fits_plus v e _ Hf) (proj2 (minus_none _ e)) Q) as P.
  pose proof (admissible_agree v (sampled g) k0 m _ e' (Whole_Results.fits_plus v e' _ Hf') (proj2 (minus_none _ e')) Q') as P'.
  split; [exact Q|]. split; [|reflexivity]. repeat (constructor; [first [exact I|exact (conj Hf P)|exact (conj Hf' P')]|]). constructor.
Qed.
