(** Assigning the permittivity in magnetic and chiral media and solving again: C169. *)
From Coq Require Import Reals Lra Lia List Arith ZArith Bool.
Require Import Verif.Base Verif.Num Verif.Grid_Model Verif.Grid_Spec Verif.Grid_Proofs Verif.Bound_Model Verif.Bound_Spec Verif.Entry_Model Verif.Entry_Spec Verif.Array_Glue.
Require Import Verif.Cplx Verif.CSum Verif.Field Verif.Fourier_Model Verif.Fourier_Spec Verif.Vec_Model Verif.Vec_Spec Verif.Vec_Proofs Verif.Solver_Model Verif.Solver_Spec Verif.Derived_Model Verif.Derived_Spec Verif.Choice_Model Verif.Array_Model Verif.Array_Spec Verif.Material_Model Verif.Material_Spec Verif.Run_Model Verif.Run_Spec.
Require Import Verif.Magnetic_Spec Verif.Whole_Model Verif.Whole_Spec Verif.Swap_Model Verif.Swap_Spec Verif.Replace_Spec Verif.Replace_Proofs.
Import ListNotations.
Local Open Scope R_scope.
Local Open Scope C_scope.

(** C169.  Without a bound, under the hypotheses of C154 on the request, whatever was done with a Solution before, including assignments of other permittivities: after assigning a
    permittivity with which the medium absorbs everywhere, and whatever is done after that but for assigning another, E and H of what solve returns are those of the only solution of
    Maxwell's equations with that permittivity, with the permeability and the magneto-electric coupling of the constructor and with the current that was assigned last, up to the tolerance
    times a constant that depends neither on that current nor on what was done. *)
Theorem replace_accurate_partial : forall (W : Type) u eps settled thick q g crd k0 src e x z m nu kappa,
  (0 < eps)%R -> (2 * eps <= 1)%R -> physical u ->
  q_grid q = AGrid g -> Entry_Spec.spatial g -> (ndim RN g <= 3)%nat -> (forall i, (i < ndim RN g)%nat -> coordinates g i = Ok (crd i)) ->
  means_tensor g crd (q_xi q) x -> means_tensor g crd (q_zeta q) z -> asked_wavenumber u q k0 -> (0 < k0)%R -> asked_kind g q true ->
  asked_source u g crd k0 q true src -> asked_materials g crd q e m -> q_bound q = None ->
  inverse_of (points_of g) m nu -> is_magnetic (points_of g) x z m = true -> precise eps (sampled g) k0 settled ->
  (forall G, vagree 3 (points_of g) (coupling x z nu G) (fun c p => kappa * G c p)) -> magnetic_admissible u (sampled g) k0 e x z m ->
  forall e' settled' loss, precise eps (sampled g) k0 settled' -> (0 < loss)%R -> dissipates (points_of g) e' x z m loss ->
  exists s0 K, new_solution u eps settled thick q = Ok s0 /\
    forall l1 l2 J, List.Forall (magnetic_step u eps (sampled g) k0 x z m (fun _ => 0)) l1 -> List.Forall keeps_material l2 ->
      (forall c p, last_source u k0 l2 (latest_source u k0 l1 src) c p = driving u k0 J c p) ->
      let s := history u l2 (assign_epsilon eps (sampled g) thick (steps u eps (sampled g) thick l1 s0) e' settled') in
      exists E H, maxwell u (sampled g) k0 e' x z m E H J /\
        (forall E' H', maxwell u (sampled g) k0 e' x z m E' H' J -> vagree 3 (points_of g) E' E /\ vagree 3 (points_of g) H' H) /\
        forall rtol fuel (w w' : W) s', (0 < rtol)%R -> (exists c p, (c < 3)%nat /\ CSum.inside (points_of g) p /\ J c p <> 0) ->
          solve_method fuel s NoneGiven rtol None w = Some (Returned w' s') ->
          (magnitude s' (fun c p => get_E s' c p - E c p)%C <= K * rtol * magnitude s' (get_E s'))%R /\
          (magnitude s' (fun c p => magnetizing_field u (operators s') (wavenumber s') (field s') c p - H c p)%C <= K * rtol * magnitude s' (get_E s'))%R.
Proof. exact rn_accurate. Qed.
Print Assumptions replace_accurate_partial.

(** C169.  In media without gain in which every current has fields, also without absorption, solve returns when a limit is reached, unless the field is exactly zero everywhere after some
    iteration or the last change before the call was exactly zero. *)
Theorem replace_ends_partial : forall (W : Type) u eps settled thick q g crd k0 src e x z m nu kappa,
  (0 < eps)%R -> (2 * eps <= 1)%R -> physical u ->
  q_grid q = AGrid g -> Entry_Spec.spatial g -> (ndim RN g <= 3)%nat -> (forall i, (i < ndim RN g)%nat -> coordinates g i = Ok (crd i)) ->
  means_tensor g crd (q_xi q) x -> means_tensor g crd (q_zeta q) z -> asked_wavenumber u q k0 -> (0 < k0)%R -> asked_kind g q true ->
  asked_source u g crd k0 q true src -> asked_materials g crd q e m -> q_bound q = None ->
  inverse_of (points_of g) m nu -> is_magnetic (points_of g) x z m = true -> precise eps (sampled g) k0 settled ->
  (forall G, vagree 3 (points_of g) (coupling x z nu G) (fun c p => kappa * G c p)) -> magnetic_admissible u (sampled g) k0 e x z m ->
  forall e' settled', precise eps (sampled g) k0 settled' -> magnetic_admissible u (sampled g) k0 e' x z m ->
  exists s0, new_solution u eps settled thick q = Ok s0 /\
    forall l1 l2 rtol maxiter (w : W), List.Forall (magnetic_step u eps (sampled g) k0 x z m (fun _ => 0)) l1 -> List.Forall keeps_material l2 ->
      let s := history u l2 (assign_epsilon eps (sampled g) thick (steps u eps (sampled g) thick l1 s0) e' settled') in let now := last_source u k0 l2 (latest_source u k0 l1 src) in
      (exists c p, (c < 3)%nat /\ CSum.inside (points_of g) p /\ now c p <> 0) -> (0 < rtol)%R ->
      exists fuel s', (solve_method fuel s NoneGiven rtol maxiter w = Some (Returned w s') /\ limit_reached maxiter rtol s') \/
        (solve_method fuel s NoneGiven rtol maxiter w = Some (Raised w s' ZeroDivisionError) /\ (vagree 3 (points_of g) (get_E s') (fun _ _ => 0) \/ previous_update_norm s = Fin 0)).
Proof. exact rn_ends. Qed.
Print Assumptions replace_ends_partial.

(** C169.  With an absorbing bound, what solve returns after assigning a permittivity are the fields with the susceptibility of the bound subtracted from that permittivity.  Where the
    bound has a susceptibility and E is not zero, no H makes E a solution with the susceptibility added, as for a new Solution. *)
Theorem replace_bound_refuted : forall (W : Type) u eps settled thick q g crd k0 src e x z m nu kappa chi,
  (0 < eps)%R -> (2 * eps <= 1)%R -> physical u ->
  q_grid q = AGrid g -> Entry_Spec.spatial g -> (ndim RN g <= 3)%nat -> (forall i, (i < ndim RN g)%nat -> coordinates g i = Ok (crd i)) ->
  means_tensor g crd (q_xi q) x -> means_tensor g crd (q_zeta q) z -> asked_wavenumber u q k0 -> (0 < k0)%R -> asked_kind g q true ->
  asked_source u g crd k0 q true src -> asked_materials g crd q e m -> asked_boundary g q chi ->
  inverse_of (points_of g) m nu -> is_magnetic (points_of g) x z m = true -> precise eps (sampled g) k0 settled ->
  (forall G, vagree 3 (points_of g) (coupling x z nu G) (fun c p => kappa * G c p)) -> magnetic_admissible u (sampled g) k0 (plus_isotropic e chi) x z m ->
  forall e' settled' loss, precise eps (sampled g) k0 settled' -> (0 < loss)%R -> dissipates (points_of g) (minus_isotropic e' chi) x z m loss ->
  exists s0 K, new_solution u eps settled thick q = Ok s0 /\
    forall l1 l2 J, List.Forall (magnetic_step u eps (sampled g) k0 x z m chi) l1 -> List.Forall keeps_material l2 ->
      (forall c p, last_source u k0 l2 (latest_source u k0 l1 src) c p = driving u k0 J c p) ->
      let s := history u l2 (assign_epsilon eps (sampled g) thick (steps u eps (sampled g) thick l1 s0) e' settled') in
      exists E H, maxwell u (sampled g) k0 (minus_isotropic e' chi) x z m E H J /\
        (forall E' H', maxwell u (sampled g) k0 (minus_isotropic e' chi) x z m E' H' J -> vagree 3 (points_of g) E' E /\ vagree 3 (points_of g) H' H) /\
        (forall c p H', (c < 3)%nat -> CSum.inside (points_of g) p -> chi p <> 0 -> E c p <> 0 -> ~ maxwell u (sampled g) k0 (plus_isotropic e' chi) x z m E H' J) /\
        forall rtol fuel (w w' : W) s', (0 < rtol)%R -> (exists c p, (c < 3)%nat /\ CSum.inside (points_of g) p /\ J c p <> 0) ->
          solve_method fuel s NoneGiven rtol None w = Some (Returned w' s') ->
          (magnitude s' (fun c p => get_E s' c p - E c p)%C <= K * rtol * magnitude s' (get_E s'))%R /\
          (magnitude s' (fun c p => magnetizing_field u (operators s') (wavenumber s') (field s') c p - H c p)%C <= K * rtol * magnitude s' (get_E s'))%R.
Proof. exact rb_accurate. Qed.
Print Assumptions replace_bound_refuted.

(** The hypotheses on the request are those of C154, see the examples there.  Media that absorb everywhere are admissible; hence so is this history: iterate, assign a permittivity, iterate,
    assign the source of a current density, assign another permittivity. *)
Example replace_history : forall u eps g k0 x z m nu kappa e e' settled settled' loss (S J : vfield),
  (0 < eps)%R -> (2 * eps <= 1)%R -> physical u -> Entry_Spec.spatial g -> (ndim RN g <= 3)%nat -> (0 < k0)%R ->
  inverse_of (points_of g) m nu -> is_magnetic (points_of g) x z m = true -> (forall G, vagree 3 (points_of g) (coupling x z nu G) (fun c p => kappa * G c p)) ->
  precise eps (sampled g) k0 settled -> precise eps (sampled g) k0 settled' -> (0 < loss)%R -> dissipates (points_of g) e x z m loss -> dissipates (points_of g) e' x z m loss ->
  magnetic_admissible u (sampled g) k0 e x z m /\
  let l := [Do (ONext true); Do (ONext false); Assign e settled; Do (ONext true); Do (OSetSource (driving u k0 J)); Assign e' settled'] in
  List.Forall (magnetic_step u eps (sampled g) k0 x z m (fun _ => 0)) l /\ forall c p, latest_source u k0 l S c p = driving u k0 J c p.
Proof.
  intros u eps g k0 x z m nu kappa e e' settled settled' loss S J He H1 Hu Hg Hdim Hk Hnu Hm Hc Hp Hp' Hl Hd Hd'.
  pose proof (proj1 (dissipating_admissible u eps None g k0 x z m nu kappa He H1 Hu Hg Hdim Hk Hnu Hm Hc e loss settled Hp Hl Hd)) as Q.
  pose proof (proj1 (dissipating_admissible u eps None g k0 x z m nu kappa He H1 Hu Hg Hdim Hk Hnu Hm Hc e' loss settled Hp Hl Hd')) as Q'.
  pose proof (admissible_acts u (sampled g) k0 _ e x z m (Replace_Keep.tagree_acts _ _ _ (proj2 (Swap_Proofs.minus_none (points_of g) e))) Q) as P.
  pose proof (admissible_acts u (sampled g) k0 _ e' x z m (Replace_Keep.tagree_acts _ _ _ (proj2 (Swap_Proofs.minus_none (points_of g) e'))) Q') as P'.
  split; [exact Q|]. split; [|intros c p; reflexivity]. repeat (constructor; [first [exact I|exact (conj Hp P)|exact (conj Hp' P')]|]). constructor.
Qed.
