(** From the initial field to the result in magnetic and chiral materials: C160. *)
From Coq Require Import Reals Lra Lia List Arith ZArith Bool.
Require Import Verif.Base Verif.Num Verif.Grid_Model Verif.Grid_Spec Verif.Grid_Proofs Verif.Bound_Model Verif.Bound_Spec Verif.Bound_Proofs Verif.Entry_Model Verif.Entry_Spec Verif.Array_Glue.
Require Import Verif.Cplx Verif.CSum Verif.Field Verif.Fourier_Model Verif.Fourier_Spec Verif.Vec_Model Verif.Solver_Model Verif.Solver_Spec Verif.Derived_Model Verif.Derived_Spec Verif.Modes_Model Verif.Choice_Model.
Require Import Verif.Array_Model Verif.Array_Spec Verif.Material_Model Verif.Material_Spec Verif.Material_More Verif.Run_Model Verif.Run_Spec Verif.Magnetic_Spec.
Require Import Verif.Whole_Model Verif.Whole_Spec Verif.Whole_Proofs Verif.Whole_Results Verif.Whole_Magnetic Verif.Warm_Model Verif.Warm_Magnetic.
Require Verif.Warm_Properties Verif.Array_Proofs.
Import ListNotations.
Local Open Scope R_scope.
Local Open Scope C_scope.

(** C160.  Under the hypotheses of C154: if there is a current, the medium has no gain, and the initial field is not farther from a solution than zero is, then
    solve returns, without exception, when a limit is reached. *)
Theorem magnetic_initial_field_ends : forall (W : Type) u eps settled thick q g crd k0 src J e x z m nu kappa chi (w : W),
  (0 < eps)%R -> (2 * eps <= 1)%R -> physical u ->
  q_grid q = AGrid g -> Entry_Spec.spatial g -> (ndim RN g <= 3)%nat -> (forall i, (i < ndim RN g)%nat -> coordinates g i = Ok (crd i)) ->
  means_tensor g crd (q_xi q) x -> means_tensor g crd (q_zeta q) z -> asked_wavenumber u q k0 -> (0 < k0)%R -> asked_kind g q true ->
  asked_source u g crd k0 q true src -> (forall c p, src c p = driving u k0 J c p) -> asked_materials g crd q e m -> asked_boundary g q chi ->
  inverse_of (points_of g) m nu -> is_magnetic (points_of g) x z m = true ->
  (20 * sqrt (2 * sqrt eps) * ((1 + highest_frequency (sampled g) k0) * (1 + highest_frequency (sampled g) k0)) < snd settled * snd settled)%R ->
  (forall G, vagree 3 (points_of g) (coupling x z nu G) (fun c p => kappa * G c p)) ->
  forall a E H rtol maxiter, dissipates (points_of g) (plus_isotropic e chi) x z m 0 -> maxwell u (sampled g) k0 (plus_isotropic e chi) x z m E H J ->
  (exists c p, (c < 3)%nat /\ CSum.inside (points_of g) p /\ J c p <> 0) -> Array_Spec.broadcasts a (3 :: points_of g)%nat ->
  (vnorm2 3 (points_of g) (fun c p => bget a (c :: p) - E c p)%C <= vnorm2 3 (points_of g) E)%R -> (0 < rtol)%R ->
  exists fuel s, solve_from u eps settled thick fuel q a NoneGiven rtol maxiter w = Ok (Some (Returned w s)) /\ wavenumber s = k0 /\ limit_reached maxiter rtol s.
Proof. exact @wm_ends. Qed.
Print Assumptions magnetic_initial_field_ends.

(** C160.  From any other initial field it does so too, unless the field is exactly zero everywhere after some iteration. *)
Theorem magnetic_initial_field_partial : forall (W : Type) u eps settled thick q g crd k0 src J e x z m nu kappa chi (w : W),
  (0 < eps)%R -> (2 * eps <= 1)%R -> physical u ->
  q_grid q = AGrid g -> Entry_Spec.spatial g -> (ndim RN g <= 3)%nat -> (forall i, (i < ndim RN g)%nat -> coordinates g i = Ok (crd i)) ->
  means_tensor g crd (q_xi q) x -> means_tensor g crd (q_zeta q) z -> asked_wavenumber u q k0 -> (0 < k0)%R -> asked_kind g q true ->
  asked_source u g crd k0 q true src -> (forall c p, src c p = driving u k0 J c p) -> asked_materials g crd q e m -> asked_boundary g q chi ->
  inverse_of (points_of g) m nu -> is_magnetic (points_of g) x z m = true ->
  (20 * sqrt (2 * sqrt eps) * ((1 + highest_frequency (sampled g) k0) * (1 + highest_frequency (sampled g) k0)) < snd settled * snd settled)%R ->
  (forall G, vagree 3 (points_of g) (coupling x z nu G) (fun c p => kappa * G c p)) ->
  forall a E H rtol maxiter, dissipates (points_of g) (plus_isotropic e chi) x z m 0 -> maxwell u (sampled g) k0 (plus_isotropic e chi) x z m E H J ->
  (exists c p, (c < 3)%nat /\ CSum.inside (points_of g) p /\ J c p <> 0) -> Array_Spec.broadcasts a (3 :: points_of g)%nat -> (0 < rtol)%R ->
  exists fuel s, (solve_from u eps settled thick fuel q a NoneGiven rtol maxiter w = Ok (Some (Returned w s)) /\ wavenumber s = k0 /\ limit_reached maxiter rtol s) \/
    (solve_from u eps settled thick fuel q a NoneGiven rtol maxiter w = Ok (Some (Raised w s ZeroDivisionError)) /\ vagree 3 (points_of g) (get_E s) (fun _ _ => 0)).
Proof. exact @wm_any. Qed.
Print Assumptions magnetic_initial_field_partial.

(** C160.  What solve returns is never farther from a solution than the initial field is, so a solution stays as it is. *)
Theorem magnetic_initial_field_closer : forall (W : Type) u eps settled thick q g crd k0 src J e x z m nu kappa chi (w : W),
  (0 < eps)%R -> (2 * eps <= 1)%R -> physical u ->
  q_grid q = AGrid g -> Entry_Spec.spatial g -> (ndim RN g <= 3)%nat -> (forall i, (i < ndim RN g)%nat -> coordinates g i = Ok (crd i)) ->
  means_tensor g crd (q_xi q) x -> means_tensor g crd (q_zeta q) z -> asked_wavenumber u q k0 -> (0 < k0)%R -> asked_kind g q true ->
  asked_source u g crd k0 q true src -> (forall c p, src c p = driving u k0 J c p) -> asked_materials g crd q e m -> asked_boundary g q chi ->
  inverse_of (points_of g) m nu -> is_magnetic (points_of g) x z m = true ->
  (20 * sqrt (2 * sqrt eps) * ((1 + highest_frequency (sampled g) k0) * (1 + highest_frequency (sampled g) k0)) < snd settled * snd settled)%R ->
  (forall G, vagree 3 (points_of g) (coupling x z nu G) (fun c p => kappa * G c p)) ->
  forall a E H rtol maxiter fuel w' s, dissipates (points_of g) (plus_isotropic e chi) x z m 0 -> maxwell u (sampled g) k0 (plus_isotropic e chi) x z m E H J ->
  Array_Spec.broadcasts a (3 :: points_of g)%nat -> (0 <= rtol)%R -> solve_from u eps settled thick fuel q a NoneGiven rtol maxiter w = Ok (Some (Returned w' s)) ->
  (vnorm2 3 (points_of g) (fun c p => get_E s c p - E c p)%C <= vnorm2 3 (points_of g) (fun c p => bget a (c :: p) - E c p)%C)%R.
Proof. exact @wm_closer. Qed.
Print Assumptions magnetic_initial_field_closer.

(** C160.  If the medium absorbs everywhere, then the E and H of what solve returns are those of the only solution up to a constant of the problem times the
    tolerance; neither depends on the initial field. *)
Theorem magnetic_initial_field_accurate : forall (W : Type) u eps settled thick q g crd k0 src J e x z m nu kappa chi (w : W),
  (0 < eps)%R -> (2 * eps <= 1)%R -> physical u ->
  q_grid q = AGrid g -> Entry_Spec.spatial g -> (ndim RN g <= 3)%nat -> (forall i, (i < ndim RN g)%nat -> coordinates g i = Ok (crd i)) ->
  means_tensor g crd (q_xi q) x -> means_tensor g crd (q_zeta q) z -> asked_wavenumber u q k0 -> (0 < k0)%R -> asked_kind g q true ->
  asked_source u g crd k0 q true src -> (forall c p, src c p = driving u k0 J c p) -> asked_materials g crd q e m -> asked_boundary g q chi ->
  inverse_of (points_of g) m nu -> is_magnetic (points_of g) x z m = true ->
  (20 * sqrt (2 * sqrt eps) * ((1 + highest_frequency (sampled g) k0) * (1 + highest_frequency (sampled g) k0)) < snd settled * snd settled)%R ->
  (forall G, vagree 3 (points_of g) (coupling x z nu G) (fun c p => kappa * G c p)) ->
  forall loss, (0 < loss)%R -> dissipates (points_of g) (plus_isotropic e chi) x z m loss ->
  exists E H K, maxwell u (sampled g) k0 (plus_isotropic e chi) x z m E H J /\
    (forall E' H', maxwell u (sampled g) k0 (plus_isotropic e chi) x z m E' H' J -> vagree 3 (points_of g) E' E /\ vagree 3 (points_of g) H' H) /\
    forall a fuel rtol w' s, Array_Spec.broadcasts a (3 :: points_of g)%nat -> (0 < rtol)%R -> (exists c p, (c < 3)%nat /\ CSum.inside (points_of g) p /\ J c p <> 0) ->
      solve_from u eps settled thick fuel q a NoneGiven rtol None w = Ok (Some (Returned w' s)) ->
      (magnitude s (fun c p => get_E s c p - E c p)%C <= K * rtol * magnitude s (get_E s))%R /\
      (magnitude s (fun c p => magnetizing_field u (operators s) (wavenumber s) (field s) c p - H c p)%C <= K * rtol * magnitude s (get_E s))%R.
Proof. exact @wm_accurate. Qed.
Print Assumptions magnetic_initial_field_accurate.

(** C160.  Without current the solution is zero everywhere, but if the initial field is not, then solve never returns unless the number of iterations is
    limited or the tolerance is large. *)
Theorem magnetic_initial_field_refuted : forall (W : Type) u eps settled thick q g crd k0 src J e x z m nu kappa chi (w : W),
  (0 < eps)%R -> (2 * eps <= 1)%R -> physical u ->
  q_grid q = AGrid g -> Entry_Spec.spatial g -> (ndim RN g <= 3)%nat -> (forall i, (i < ndim RN g)%nat -> coordinates g i = Ok (crd i)) ->
  means_tensor g crd (q_xi q) x -> means_tensor g crd (q_zeta q) z -> asked_wavenumber u q k0 -> (0 < k0)%R -> asked_kind g q true ->
  asked_source u g crd k0 q true src -> (forall c p, src c p = driving u k0 J c p) -> asked_materials g crd q e m -> asked_boundary g q chi ->
  inverse_of (points_of g) m nu -> is_magnetic (points_of g) x z m = true ->
  (20 * sqrt (2 * sqrt eps) * ((1 + highest_frequency (sampled g) k0) * (1 + highest_frequency (sampled g) k0)) < snd settled * snd settled)%R ->
  (forall G, vagree 3 (points_of g) (coupling x z nu G) (fun c p => kappa * G c p)) ->
  forall loss, (0 < loss)%R -> dissipates (points_of g) (plus_isotropic e chi) x z m loss -> (forall c p, (c < 3)%nat -> CSum.inside (points_of g) p -> J c p = 0) ->
  exists tol, (0 < tol)%R /\ forall a rtol fuel w' s, Array_Spec.broadcasts a (3 :: points_of g)%nat ->
    (exists c p, (c < 3)%nat /\ CSum.inside (points_of g) p /\ bget a (c :: p) <> 0) -> (0 < rtol < tol)%R ->
    solve_from u eps settled thick fuel q a NoneGiven rtol None w <> Ok (Some (Returned w' s)).
Proof. exact @wm_never. Qed.
Print Assumptions magnetic_initial_field_refuted.

(** The hypotheses about the problem are met by [magnetic_whole_hypotheses] in Whole_Magnetic_Properties.  The electric field of a solution times any number
    from 0 to 2 qualifies as initial field for the first theorem. *)
Example magnetic_initial_fields : forall gs (E : vfield) (x : R), (0 <= x <= 2)%R -> let a := Arr (3 :: gs)%nat (fun p => RtoC x * E (hd 0%nat p) (tl p)) in
  Array_Spec.broadcasts a (3 :: gs)%nat /\ (vnorm2 3 gs (fun c p => bget a (c :: p) - E c p)%C <= vnorm2 3 gs E)%R.
Proof. intros gs E x Hx. exact (Warm_Properties.initial_fields 3 gs E x Hx). Qed.
