(** From the initial field to the result: C157. *)
From Coq Require Import Reals Lra Lia List Arith ZArith Bool.
Require Import Verif.Base Verif.Num Verif.Grid_Model Verif.Grid_Spec Verif.Grid_Proofs Verif.Bound_Model Verif.Bound_Spec Verif.Entry_Model Verif.Entry_Spec Verif.Array_Glue.
Require Import Verif.Cplx Verif.CSum Verif.Field Verif.Fourier_Model Verif.Fourier_Spec Verif.Vec_Model Verif.Vec_Spec Verif.Vec_Proofs Verif.Solver_Model Verif.Solver_Spec Verif.Solver_Convergence Verif.Derived_Model Verif.Array_Model Verif.Array_Spec Verif.Material_Model Verif.Material_Spec Verif.Run_Model Verif.Run_Spec.
Require Import Verif.Whole_Model Verif.Whole_Spec Verif.Warm_Model Verif.Warm_Proofs.
Require Verif.Array_Assign Verif.Array_Proofs.
Import ListNotations.
Local Open Scope R_scope.
Local Open Scope C_scope.

(** C157.  If there is a source, the medium has no gain, and the initial field is not farther from a solution than zero is, then solve returns, without
    exception, when a limit is reached. *)
Theorem initial_field_ends : forall (W : Type) u eps settled thick q g crd v k0 m src t chi (w : W),
  (0 < eps)%R -> (2 * eps <= 1)%R -> (0 < m)%R -> (800 * sqrt eps * (m * m) < 1)%R -> (0 < c_light u)%R ->
  q_grid q = AGrid g -> Entry_Spec.spatial g -> (v = true -> (ndim RN g <= 3)%nat) -> (forall i, (i < ndim RN g)%nat -> coordinates g i = Ok (crd i)) ->
  q_xi q = GivenArray (number 0) -> q_zeta q = GivenArray (number 0) -> q_mu q = GivenArray (number (RtoC m)) -> asked_wavenumber u q k0 -> k0 <> 0%R -> asked_kind g q v -> asked_source u g crd k0 q v src ->
  asked_medium g crd q t -> asked_boundary g q chi -> fits v t ->
  forall a E rtol maxiter, let n := (if v then 3 else 1)%nat in
  absorbs n (points_of g) (plus_isotropic t chi) 0 -> wave_equation v (sampled g) k0 (/ m) (plus_isotropic t chi) E src ->
  (exists c p, (c < n)%nat /\ CSum.inside (points_of g) p /\ src c p <> 0) -> Array_Spec.broadcasts a (n :: points_of g) ->
  (vnorm2 n (points_of g) (fun c p => bget a (c :: p) - E c p)%C <= vnorm2 n (points_of g) E)%R -> (0 < rtol)%R ->
  exists fuel s, solve_from u eps settled thick fuel q a NoneGiven rtol maxiter w = Ok (Some (Returned w s)) /\ wavenumber s = k0 /\ limit_reached maxiter rtol s.
Proof. exact @warm_ends. Qed.
Print Assumptions initial_field_ends.

(** C157.  From any other initial field it does so too, unless the field is exactly zero everywhere after some iteration. *)
Theorem initial_field_partial : forall (W : Type) u eps settled thick q g crd v k0 m src t chi (w : W),
  (0 < eps)%R -> (2 * eps <= 1)%R -> (0 < m)%R -> (800 * sqrt eps * (m * m) < 1)%R -> (0 < c_light u)%R ->
  q_grid q = AGrid g -> Entry_Spec.spatial g -> (v = true -> (ndim RN g <= 3)%nat) -> (forall i, (i < ndim RN g)%nat -> coordinates g i = Ok (crd i)) ->
  q_xi q = GivenArray (number 0) -> q_zeta q = GivenArray (number 0) -> q_mu q = GivenArray (number (RtoC m)) -> asked_wavenumber u q k0 -> k0 <> 0%R -> asked_kind g q v -> asked_source u g crd k0 q v src ->
  asked_medium g crd q t -> asked_boundary g q chi -> fits v t ->
  forall a E rtol maxiter, let n := (if v then 3 else 1)%nat in
  absorbs n (points_of g) (plus_isotropic t chi) 0 -> wave_equation v (sampled g) k0 (/ m) (plus_isotropic t chi) E src ->
  (exists c p, (c < n)%nat /\ CSum.inside (points_of g) p /\ src c p <> 0) -> Array_Spec.broadcasts a (n :: points_of g) -> (0 < rtol)%R ->
  exists fuel s, (solve_from u eps settled thick fuel q a NoneGiven rtol maxiter w = Ok (Some (Returned w s)) /\ wavenumber s = k0 /\ limit_reached maxiter rtol s) \/
    (solve_from u eps settled thick fuel q a NoneGiven rtol maxiter w = Ok (Some (Raised w s ZeroDivisionError)) /\ vagree n (points_of g) (get_E s) (fun _ _ => 0)).
Proof. exact @warm_any. Qed.
Print Assumptions initial_field_partial.

(** C157.  What solve returns is never farther from a solution than the initial field is, so a solution stays as it is. *)
Theorem initial_field_closer : forall (W : Type) u eps settled thick q g crd v k0 m src t chi (w : W),
  (0 < eps)%R -> (2 * eps <= 1)%R -> (0 < m)%R -> (800 * sqrt eps * (m * m) < 1)%R -> (0 < c_light u)%R ->
  q_grid q = AGrid g -> Entry_Spec.spatial g -> (v = true -> (ndim RN g <= 3)%nat) -> (forall i, (i < ndim RN g)%nat -> coordinates g i = Ok (crd i)) ->
  q_xi q = GivenArray (number 0) -> q_zeta q = GivenArray (number 0) -> q_mu q = GivenArray (number (RtoC m)) -> asked_wavenumber u q k0 -> k0 <> 0%R -> asked_kind g q v -> asked_source u g crd k0 q v src ->
  asked_medium g crd q t -> asked_boundary g q chi -> fits v t ->
  forall a E rtol maxiter fuel w' s, let n := (if v then 3 else 1)%nat in
  absorbs n (points_of g) (plus_isotropic t chi) 0 -> wave_equation v (sampled g) k0 (/ m) (plus_isotropic t chi) E src ->
  Array_Spec.broadcasts a (n :: points_of g) -> (0 <= rtol)%R -> solve_from u eps settled thick fuel q a NoneGiven rtol maxiter w = Ok (Some (Returned w' s)) ->
  (vnorm2 n (points_of g) (fun c p => get_E s c p - E c p)%C <= vnorm2 n (points_of g) (fun c p => bget a (c :: p) - E c p)%C)%R.
Proof. exact @warm_closer. Qed.
Print Assumptions initial_field_closer.

(** C157.  If the medium absorbs everywhere, then what solve returns is the only solution up to a constant of the problem times the tolerance; neither
    depends on the initial field. *)
Theorem initial_field_accurate : forall (W : Type) u eps settled thick q g crd v k0 m src t chi (w : W),
  (0 < eps)%R -> (2 * eps <= 1)%R -> (0 < m)%R -> (800 * sqrt eps * (m * m) < 1)%R -> (0 < c_light u)%R ->
  q_grid q = AGrid g -> Entry_Spec.spatial g -> (v = true -> (ndim RN g <= 3)%nat) -> (forall i, (i < ndim RN g)%nat -> coordinates g i = Ok (crd i)) ->
  q_xi q = GivenArray (number 0) -> q_zeta q = GivenArray (number 0) -> q_mu q = GivenArray (number (RtoC m)) -> asked_wavenumber u q k0 -> k0 <> 0%R -> asked_kind g q v -> asked_source u g crd k0 q v src ->
  asked_medium g crd q t -> asked_boundary g q chi -> fits v t ->
  forall loss, let n := (if v then 3 else 1)%nat in
  (0 < loss)%R -> absorbs n (points_of g) (plus_isotropic t chi) loss ->
  exists E K, wave_equation v (sampled g) k0 (/ m) (plus_isotropic t chi) E src /\
    (forall E', wave_equation v (sampled g) k0 (/ m) (plus_isotropic t chi) E' src -> vagree n (points_of g) E' E) /\
    forall a fuel rtol w' s, Array_Spec.broadcasts a (n :: points_of g) -> (0 < rtol)%R -> (exists c p, (c < n)%nat /\ CSum.inside (points_of g) p /\ src c p <> 0) ->
      solve_from u eps settled thick fuel q a NoneGiven rtol None w = Ok (Some (Returned w' s)) ->
      (magnitude s (fun c p => get_E s c p - E c p)%C <= K * rtol * magnitude s (get_E s))%R.
Proof. exact @warm_accurate. Qed.
Print Assumptions initial_field_accurate.

(** C157.  Without source the solution is zero everywhere, but if the initial field is not, then solve never returns unless the number of iterations is
    limited or the tolerance is large. *)
Theorem initial_field_refuted : forall (W : Type) u eps settled thick q g crd v k0 m src t chi (w : W),
  (0 < eps)%R -> (2 * eps <= 1)%R -> (0 < m)%R -> (800 * sqrt eps * (m * m) < 1)%R -> (0 < c_light u)%R ->
  q_grid q = AGrid g -> Entry_Spec.spatial g -> (v = true -> (ndim RN g <= 3)%nat) -> (forall i, (i < ndim RN g)%nat -> coordinates g i = Ok (crd i)) ->
  q_xi q = GivenArray (number 0) -> q_zeta q = GivenArray (number 0) -> q_mu q = GivenArray (number (RtoC m)) -> asked_wavenumber u q k0 -> k0 <> 0%R -> asked_kind g q v -> asked_source u g crd k0 q v src ->
  asked_medium g crd q t -> asked_boundary g q chi -> fits v t ->
  forall loss, let n := (if v then 3 else 1)%nat in
  (0 < loss)%R -> absorbs n (points_of g) (plus_isotropic t chi) loss -> (forall c p, (c < n)%nat -> CSum.inside (points_of g) p -> src c p = 0) ->
  exists tol, (0 < tol)%R /\ forall a rtol fuel w' s, Array_Spec.broadcasts a (n :: points_of g) ->
    (exists c p, (c < n)%nat /\ CSum.inside (points_of g) p /\ bget a (c :: p) <> 0) -> (0 < rtol < tol)%R ->
    solve_from u eps settled thick fuel q a NoneGiven rtol None w <> Ok (Some (Returned w' s)).
Proof. exact @warm_never. Qed.
Print Assumptions initial_field_refuted.

(** The other hypotheses are those of C149; these initial fields qualify for the first theorem: the solution times any number from 0 to 2. *)
Example initial_fields : forall n gs (E : vfield) (x : R), (0 <= x <= 2)%R -> let a := Arr (n :: gs) (fun p => RtoC x * E (hd 0%nat p) (tl p)) in
  Array_Spec.broadcasts a (n :: gs) /\ (vnorm2 n gs (fun c p => bget a (c :: p) - E c p)%C <= vnorm2 n gs E)%R.
Proof.
  intros n gs E x Hx a. split.
  - split; [cbn; lia|]. cbn [ashape a]. rewrite Array_Proofs.lpad_same by reflexivity. apply spatial_refl.
  - rewrite (vagree_vnorm2 n gs _ (fun c p => RtoC (x - 1) * E c p)).
    + rewrite vnorm2_scal, Cmod_R. pose proof (vnorm2_nonneg n gs E) as HN.
      assert (Hy : (Rabs (x - 1) <= 1)%R) by (apply Rabs_le; lra). pose proof (Rabs_pos (x - 1)) as H0.
      rewrite <- (Rmult_1_l (vnorm2 n gs E)) at 2. apply Rmult_le_compat_r; [exact HN|]. nra.
    + intros c p Hc Hp. rewrite Array_Proofs.bget_same by (cbn; f_equal; apply (Vec_Proofs.inside_length _ _ Hp)). unfold element. cbn [ashape a aget]. rewrite Array_Assign.inside_clip by (constructor; assumption). cbn [hd tl]. rewrite RtoC_minus. ring.
Qed.
