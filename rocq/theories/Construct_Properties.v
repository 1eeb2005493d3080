(** Theorems about the whole path from the arguments of the constructor to the fields that solve leaves, for magnetic media. *)
From Coq Require Import Reals List Arith ZArith Bool.
Require Import Verif.Base Verif.Cplx Verif.CSum Verif.Field Verif.Fourier_Model Verif.Fourier_Spec Verif.Vec_Model Verif.Solver_Model Verif.Solver_Spec.
Require Import Verif.Derived_Model Verif.Derived_Spec Verif.Choice_Model Verif.Run_Model Verif.Run_Spec Verif.Magnetic_Spec Verif.Magnetic_Properties Verif.Construct_Model Verif.Construct_Proofs.
Import ListNotations.
Local Open Scope R_scope.
Local Open Scope C_scope.

(** ** C129: solve ends in magnetic media *)
(** For every medium without gain, magnetic, anisotropic, or bi-anisotropic with a reciprocal (or uniform) coupling, whose Maxwell
    equations have a solution, solve from a zero field returns, without exception and without having changed the preconditioner,
    when a limit is reached. *)
Theorem magnetic_solve_ends : forall (W : Type) eps u g k0 epsilon xi zeta mu nu settled thick chi J kappa E H rtol maxiter (w : W),
  (0 < eps)%R -> (2 * eps <= 1)%R -> physical u -> solvable true g k0 -> (0 < k0)%R -> inverse_of (rshape g) mu nu ->
  is_magnetic (rshape g) xi zeta mu = true ->
  (20 * sqrt (2 * sqrt eps) * ((1 + highest_frequency g k0) * (1 + highest_frequency g k0)) < snd settled * snd settled)%R ->
  (forall G, vagree 3 (rshape g) (coupling xi zeta nu G) (fun c p => kappa * G c p)) ->
  dissipates (rshape g) (with_bound epsilon chi) xi zeta mu 0 -> maxwell u g k0 (with_bound epsilon chi) xi zeta mu E H J -> (0 < rtol)%R ->
  let s := constructed eps g k0 epsilon xi zeta mu settled thick (driving u k0 J) chi in
  exists fuel s', solve_method fuel s NoneGiven rtol maxiter w = Some (Returned w s') /\ operators s' = operators s /\ limit_reached maxiter rtol s'.
Proof. exact @constructed_ends. Qed.
Print Assumptions magnetic_solve_ends.

(** ** C130: the tolerance bounds the errors of E and H *)
(** With loss, solve with tolerance rtol returns fields E and H whose distances to those of the only solution of Maxwell's equations
    are at most a constant of the problem times rtol, relative to the field. *)
Theorem magnetic_solve_accurate : forall (W : Type) eps u g k0 epsilon xi zeta mu nu settled thick chi J kappa loss (w : W),
  (0 < eps)%R -> (2 * eps <= 1)%R -> physical u -> solvable true g k0 -> (0 < k0)%R -> inverse_of (rshape g) mu nu ->
  is_magnetic (rshape g) xi zeta mu = true ->
  (20 * sqrt (2 * sqrt eps) * ((1 + highest_frequency g k0) * (1 + highest_frequency g k0)) < snd settled * snd settled)%R ->
  (forall G, vagree 3 (rshape g) (coupling xi zeta nu G) (fun c p => kappa * G c p)) ->
  (0 < loss)%R -> dissipates (rshape g) (with_bound epsilon chi) xi zeta mu loss ->
  let s := constructed eps g k0 epsilon xi zeta mu settled thick (driving u k0 J) chi in
  exists E H K, maxwell u g k0 (with_bound epsilon chi) xi zeta mu E H J /\
    (forall E' H', maxwell u g k0 (with_bound epsilon chi) xi zeta mu E' H' J -> vagree 3 (rshape g) E' E /\ vagree 3 (rshape g) H' H) /\
    forall rtol, (0 < rtol)%R -> exists fuel s', solve_method fuel s NoneGiven rtol None w = Some (Returned w s') /\
      (magnitude s' (fun c p => get_E s' c p - E c p)%C <= K * rtol * magnitude s' (get_E s'))%R /\
      (magnitude s' (fun c p => magnetizing_field u (operators s') (wavenumber s') (field s') c p - H c p)%C <= K * rtol * magnitude s' (get_E s'))%R.
Proof. exact @constructed_accurate. Qed.
Print Assumptions magnetic_solve_accurate.

(** A chiral medium with a permeability that differs from point to point, with an absorbing bound on top. *)
Example magnetic_run_hypotheses : let eps := (1 / 1000000 * (1 / 1000000) * (1 / 1000000 * (1 / 1000000)))%R in
  (0 < eps)%R /\ (2 * eps <= 1)%R /\ solvable true chiral_grid 2 /\ (0 < 2)%R /\ inverse_of (rshape chiral_grid) chiral_mu chiral_nu /\
  is_magnetic (rshape chiral_grid) chiral_xi chiral_zeta chiral_mu = true /\
  (20 * sqrt (2 * sqrt eps) * ((1 + highest_frequency chiral_grid 2) * (1 + highest_frequency chiral_grid 2)) < 1 * 1)%R /\
  (forall G, vagree 3 (rshape chiral_grid) (coupling chiral_xi chiral_zeta chiral_nu G) (fun c p => 0 * G c p)) /\
  dissipates (rshape chiral_grid) (with_bound chiral_eps (Some edge_chi)) chiral_xi chiral_zeta chiral_mu 1.
Proof. exact chiral_bounded. Qed.
