(** A Solution can be used again in magnetic and chiral materials: C164. *)
From Coq Require Import Reals Lra Lia List Arith ZArith Bool.
Require Import Verif.Base Verif.Num Verif.Grid_Model Verif.Grid_Spec Verif.Grid_Proofs Verif.Bound_Model Verif.Bound_Spec Verif.Bound_Proofs Verif.Entry_Model Verif.Entry_Spec Verif.Array_Glue.
Require Import Verif.Cplx Verif.CSum Verif.Field Verif.Fourier_Model Verif.Fourier_Spec Verif.Vec_Model Verif.Solver_Model Verif.Solver_Spec Verif.Derived_Model Verif.Derived_Spec Verif.Modes_Model Verif.Choice_Model.
Require Import Verif.Array_Model Verif.Array_Spec Verif.Material_Model Verif.Material_Spec Verif.Material_More Verif.Run_Model Verif.Run_Spec Verif.Magnetic_Spec.
Require Import Verif.Whole_Model Verif.Whole_Spec Verif.Whole_Proofs Verif.Whole_Results Verif.Whole_Magnetic Verif.Reuse_Magnetic.
Import ListNotations.
Local Open Scope R_scope.
Local Open Scope C_scope.

(** C164.  Under the hypotheses of C154, whatever was done with a Solution before (iterations, assignments of E, of the source and of the current density, reads): if the medium has
    no gain and there is a source now, then solve returns when a limit is reached, unless the field is exactly zero everywhere after some iteration or the last change before the
    call was exactly zero. *)
Theorem magnetic_reuse_ends_partial : forall (W : Type) u eps settled thick q g crd k0 src e x z m nu kappa chi,
  (0 < eps)%R -> (2 * eps <= 1)%R -> physical u ->
  q_grid q = AGrid g -> Entry_Spec.spatial g -> (ndim RN g <= 3)%nat -> (forall i, (i < ndim RN g)%nat -> coordinates g i = Ok (crd i)) ->
  means_tensor g crd (q_xi q) x -> means_tensor g crd (q_zeta q) z -> asked_wavenumber u q k0 -> (0 < k0)%R -> asked_kind g q true ->
  asked_source u g crd k0 q true src -> asked_materials g crd q e m -> asked_boundary g q chi ->
  inverse_of (points_of g) m nu -> is_magnetic (points_of g) x z m = true ->
  (20 * sqrt (2 * sqrt eps) * ((1 + highest_frequency (sampled g) k0) * (1 + highest_frequency (sampled g) k0)) < snd settled * snd settled)%R ->
  (forall G, vagree 3 (points_of g) (coupling x z nu G) (fun c p => kappa * G c p)) ->
  (forall J, exists E H, maxwell u (sampled g) k0 (plus_isotropic e chi) x z m E H J) -> dissipates (points_of g) (plus_isotropic e chi) x z m 0 ->
  exists s0, new_solution u eps settled thick q = Ok s0 /\ forall l rtol maxiter (w : W), List.Forall keeps_material l ->
    let s := history u l s0 in let now := last_source u k0 l src in
    (exists c p, (c < 3)%nat /\ CSum.inside (points_of g) p /\ now c p <> 0) -> (0 < rtol)%R ->
    exists fuel s', (solve_method fuel s NoneGiven rtol maxiter w = Some (Returned w s') /\ limit_reached maxiter rtol s') \/
      (solve_method fuel s NoneGiven rtol maxiter w = Some (Raised w s' ZeroDivisionError) /\ (vagree 3 (points_of g) (get_E s') (fun _ _ => 0) \/ previous_update_norm s = Fin 0)).
Proof. exact @rm_ends. Qed.
Print Assumptions magnetic_reuse_ends_partial.

(** C164.  If the medium absorbs everywhere, then E and H of what solve returns are those of the only solution of Maxwell's equations for the current that was assigned last, up to
    the tolerance times a constant that depends neither on that current nor on what was done before. *)
Theorem magnetic_reuse_accurate : forall (W : Type) u eps settled thick q g crd k0 src e x z m nu kappa chi,
  (0 < eps)%R -> (2 * eps <= 1)%R -> physical u ->
  q_grid q = AGrid g -> Entry_Spec.spatial g -> (ndim RN g <= 3)%nat -> (forall i, (i < ndim RN g)%nat -> coordinates g i = Ok (crd i)) ->
  means_tensor g crd (q_xi q) x -> means_tensor g crd (q_zeta q) z -> asked_wavenumber u q k0 -> (0 < k0)%R -> asked_kind g q true ->
  asked_source u g crd k0 q true src -> asked_materials g crd q e m -> asked_boundary g q chi ->
  inverse_of (points_of g) m nu -> is_magnetic (points_of g) x z m = true ->
  (20 * sqrt (2 * sqrt eps) * ((1 + highest_frequency (sampled g) k0) * (1 + highest_frequency (sampled g) k0)) < snd settled * snd settled)%R ->
  (forall G, vagree 3 (points_of g) (coupling x z nu G) (fun c p => kappa * G c p)) ->
  forall loss, (0 < loss)%R -> dissipates (points_of g) (plus_isotropic e chi) x z m loss ->
  exists s0 K, new_solution u eps settled thick q = Ok s0 /\ forall l J, List.Forall keeps_material l -> (forall c p, last_source u k0 l src c p = driving u k0 J c p) ->
    exists E H, maxwell u (sampled g) k0 (plus_isotropic e chi) x z m E H J /\
      (forall E' H', maxwell u (sampled g) k0 (plus_isotropic e chi) x z m E' H' J -> vagree 3 (points_of g) E' E /\ vagree 3 (points_of g) H' H) /\
      forall rtol fuel (w w' : W) s', (0 < rtol)%R -> (exists c p, (c < 3)%nat /\ CSum.inside (points_of g) p /\ J c p <> 0) ->
        solve_method fuel (history u l s0) NoneGiven rtol None w = Some (Returned w' s') ->
        (magnitude s' (fun c p => get_E s' c p - E c p)%C <= K * rtol * magnitude s' (get_E s'))%R /\
        (magnitude s' (fun c p => magnetizing_field u (operators s') (wavenumber s') (field s') c p - H c p)%C <= K * rtol * magnitude s' (get_E s'))%R.
Proof. exact @rm_accurate. Qed.
Print Assumptions magnetic_reuse_accurate.

(** C164.  In a medium without gain no update is ever refused: each iteration changes E as the first one after assigning E does, unless the last change was exactly zero; E and H are a
    solution for the current that was assigned last then. *)
Theorem magnetic_reuse_iterates : forall u eps settled thick q g crd k0 src e x z m nu kappa chi,
  (0 < eps)%R -> (2 * eps <= 1)%R -> physical u ->
  q_grid q = AGrid g -> Entry_Spec.spatial g -> (ndim RN g <= 3)%nat -> (forall i, (i < ndim RN g)%nat -> coordinates g i = Ok (crd i)) ->
  means_tensor g crd (q_xi q) x -> means_tensor g crd (q_zeta q) z -> asked_wavenumber u q k0 -> (0 < k0)%R -> asked_kind g q true ->
  asked_source u g crd k0 q true src -> asked_materials g crd q e m -> asked_boundary g q chi ->
  inverse_of (points_of g) m nu -> is_magnetic (points_of g) x z m = true ->
  (20 * sqrt (2 * sqrt eps) * ((1 + highest_frequency (sampled g) k0) * (1 + highest_frequency (sampled g) k0)) < snd settled * snd settled)%R ->
  (forall G, vagree 3 (points_of g) (coupling x z nu G) (fun c p => kappa * G c p)) ->
  (forall J, exists E H, maxwell u (sampled g) k0 (plus_isotropic e chi) x z m E H J) -> dissipates (points_of g) (plus_isotropic e chi) x z m 0 ->
  exists s0, new_solution u eps settled thick q = Ok s0 /\ forall l fresh J, List.Forall keeps_material l -> (forall c p, last_source u k0 l src c p = driving u k0 J c p) -> let s := history u l s0 in
    (previous_update_norm s = Fin 0 /\ snd (next fresh s) = Some ZeroDivisionError /\ get_E (fst (next fresh s)) = get_E s /\
     maxwell u (sampled g) k0 (plus_isotropic e chi) x z m (get_E s) (magnetizing_field u (operators s) (wavenumber s) (field s)) J) \/
    (snd (next fresh s) = None /\ change s (fst (next fresh s)) = attempt s /\ previous_update_norm (fst (next fresh s)) = Fin (attempt s)).
Proof. exact rm_history. Qed.
Print Assumptions magnetic_reuse_iterates.

(** C164.  After switching the source off, the solution is zero everywhere, but if E is not zero yet then solve never returns, unless the number of iterations is limited or the
    tolerance is large. *)
Theorem magnetic_reuse_refuted : forall (W : Type) u eps settled thick q g crd k0 src e x z m nu kappa chi,
  (0 < eps)%R -> (2 * eps <= 1)%R -> physical u ->
  q_grid q = AGrid g -> Entry_Spec.spatial g -> (ndim RN g <= 3)%nat -> (forall i, (i < ndim RN g)%nat -> coordinates g i = Ok (crd i)) ->
  means_tensor g crd (q_xi q) x -> means_tensor g crd (q_zeta q) z -> asked_wavenumber u q k0 -> (0 < k0)%R -> asked_kind g q true ->
  asked_source u g crd k0 q true src -> asked_materials g crd q e m -> asked_boundary g q chi ->
  inverse_of (points_of g) m nu -> is_magnetic (points_of g) x z m = true ->
  (20 * sqrt (2 * sqrt eps) * ((1 + highest_frequency (sampled g) k0) * (1 + highest_frequency (sampled g) k0)) < snd settled * snd settled)%R ->
  (forall G, vagree 3 (points_of g) (coupling x z nu G) (fun c p => kappa * G c p)) ->
  forall loss, (0 < loss)%R -> dissipates (points_of g) (plus_isotropic e chi) x z m loss ->
  exists s0 tol, new_solution u eps settled thick q = Ok s0 /\ (0 < tol)%R /\ forall l, List.Forall keeps_material l -> let s := history u l s0 in
    vagree 3 (points_of g) (last_source u k0 l src) (fun _ _ => 0) -> (exists c p, (c < 3)%nat /\ CSum.inside (points_of g) p /\ get_E s c p <> 0) ->
    forall rtol fuel (w w' : W) s', (0 < rtol < tol)%R -> solve_method fuel s NoneGiven rtol None w <> Some (Returned w' s').
Proof. exact @rm_never. Qed.
Print Assumptions magnetic_reuse_refuted.

(** The hypotheses on the request are those of C154, see the examples there; histories as in C163.  Every source is that of a current density. *)
Example magnetic_reuse_current : forall u k0 l (S : vfield), physical u -> (0 < k0)%R ->
  let l' := (l ++ [OSetSource S; ONext true; ONext false])%list in
  exists J, forall c p, last_source u k0 l' (fun _ _ => 0) c p = driving u k0 J c p.
Proof.
  intros u k0 l S Hu Hk l'. exists (current u k0 S). intros c p. rewrite (driving_current u k0 S Hu Hk). unfold l', last_source. rewrite fold_left_app. reflexivity.
Qed.
