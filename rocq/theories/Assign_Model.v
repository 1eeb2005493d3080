(** Model of assignments to a Solution that are interrupted, by a KeyboardInterrupt or a MemoryError: python/macromax/solver.py lines
    702-720 (source_distribution), 755-787 (epsilon), 800-809 (j), 823-832 (E), and 292-492 with 514-527 (__prepare_preconditioner), as sequences of statements
    that each change one attribute.  Nothing is caught in the repository, so that what has been done before the interruption stays.
    Simplified: as in Run_Model; assigning all elements of an array is one statement (numpy does not check for interrupts in between);
    the operators of lines 529-589, which are functions, are not part of what is observed here. *)
From Coq Require Import Reals List Arith ZArith Bool.
Require Import Verif.Base Verif.Cplx Verif.CSum Verif.Field Verif.Fourier_Model Verif.Vec_Model Verif.Solver_Model Verif.Derived_Model Verif.Run_Model.
Import ListNotations.
Local Open Scope R_scope.
Local Open Scope C_scope.

Definition statement : Type := solution -> solution.
Definition execute (l : list statement) (s : solution) : solution := fold_left (fun s f => f s) l s.
(** The interruption comes after [k] statements. *)
Definition interrupted (k : nat) (l : list statement) (s : solution) : solution := execute (firstn k l) s.

(** E = .., lines 831-832. *)
Definition assign_E (s : solution) (E : vfield) : list statement :=
  [ (fun t => set_field t (fun c p => E c p * RtoC (wavenumber s * wavenumber s)));
    (fun t => set_prev_norm t Inf) ].
(** source_distribution = .., lines 711-720. *)
Definition assign_source (S : vfield) : list statement :=
  [ (fun t => set_operators t (with_source (operators t) S));
    (fun t => set_prev_norm t Inf) ].
(** j = .., line 809. *)
Definition assign_j (u : si) (s : solution) (J : vfield) : list statement := assign_source (source_of_current u (wavenumber s) J).

(** Single attributes. *)
Definition put_magnetic (b : bool) (o : ops) : ops :=
  {| o_grid := o_grid o; o_vectorial := o_vectorial o; o_magnetic := b; o_alpha := o_alpha o; o_beta := o_beta o;
     o_chiEE := o_chiEE o; o_chiEH := o_chiEH o; o_chiHE := o_chiHE o; o_chiHH := o_chiHH o; o_source := o_source o |}.
Definition put_beta (b : R) (o : ops) : ops :=
  {| o_grid := o_grid o; o_vectorial := o_vectorial o; o_magnetic := o_magnetic o; o_alpha := o_alpha o; o_beta := b;
     o_chiEE := o_chiEE o; o_chiEH := o_chiEH o; o_chiHE := o_chiHE o; o_chiHH := o_chiHH o; o_source := o_source o |}.
Definition put_alpha (a : C) (o : ops) : ops :=
  {| o_grid := o_grid o; o_vectorial := o_vectorial o; o_magnetic := o_magnetic o; o_alpha := a; o_beta := o_beta o;
     o_chiEE := o_chiEE o; o_chiEH := o_chiEH o; o_chiHE := o_chiHE o; o_chiHH := o_chiHH o; o_source := o_source o |}.
Definition put_chi (ee eh he hh : tensor) (o : ops) : ops :=
  {| o_grid := o_grid o; o_vectorial := o_vectorial o; o_magnetic := o_magnetic o; o_alpha := o_alpha o; o_beta := o_beta o;
     o_chiEE := ee; o_chiEH := eh; o_chiHE := he; o_chiHH := hh; o_source := o_source o |}.
Definition put_EE (t : tensor) (o : ops) : ops := put_chi t (o_chiEH o) (o_chiHE o) (o_chiHH o) o.
Definition put_EH (t : tensor) (o : ops) : ops := put_chi (o_chiEE o) t (o_chiHE o) (o_chiHH o) o.
Definition put_HE (t : tensor) (o : ops) : ops := put_chi (o_chiEE o) (o_chiEH o) t (o_chiHH o) o.
Definition put_HH (t : tensor) (o : ops) : ops := put_chi (o_chiEE o) (o_chiEH o) (o_chiHE o) t o.
Definition put_source (S : vfield) (o : ops) : ops :=
  {| o_grid := o_grid o; o_vectorial := o_vectorial o; o_magnetic := o_magnetic o; o_alpha := o_alpha o; o_beta := o_beta o;
     o_chiEE := o_chiEE o; o_chiEH := o_chiEH o; o_chiHE := o_chiHE o; o_chiHH := o_chiHH o; o_source := S |}.
Definition change (f : ops -> ops) : statement := fun t => set_operators t (f (operators t)).

(** __update_operators, lines 514-527. *)
Definition update_statements (alpha : C) : list statement :=
  let r o := im (o_alpha o) / im alpha in
  [ change (fun o => put_source (fun c p => o_source o c p * r o) o);
    change (fun o => put_EH (tscale (r o) (o_chiEH o)) o);
    change (fun o => put_HE (tscale (r o) (o_chiHE o)) o);
    change (fun o => put_HH (tscale (r o) (o_chiHH o)) o);
    change (fun o => put_EE (tscale (1 / (Ci / im (o_alpha o))) (o_chiEE o)) o);
    change (fun o => put_EE (tshift (o_alpha o - alpha) (o_chiEE o)) o);
    change (fun o => put_EE (tscale (Ci / im alpha) (o_chiEE o)) o);
    change (put_alpha alpha) ].
(** __prepare_preconditioner, lines 299-492; the constants alpha and beta, and whether the medium counts as magnetic, are arguments. *)
Definition prepare_statements (magnetic : bool) (alpha : C) (beta : R) (epsilon xi zeta mu : tensor) (source : vfield) : list statement :=
  let mu_inv := tinv mu in
  let chiEH_beta := tscale (- Ci) (tmul xi mu_inv) in
  let chiHE_beta := tscale Ci (tmul mu_inv zeta) in
  let delta := tsub epsilon (tmul xi (tscale (- Ci) chiHE_beta)) in
  let chiHH := if magnetic then tsub (TScalar (fun _ => 1)) (tscale (1 / RtoC beta) mu_inv)
               else tadd (TScalar (fun _ => 1)) (tscale (- (1 / RtoC beta)) mu_inv) in
  [ change (put_magnetic magnetic);
    change (put_beta beta);
    change (put_alpha alpha);
    change (put_EH (tscale (Ci / im alpha / RtoC beta) chiEH_beta));
    change (put_HE (tscale (Ci / im alpha / RtoC beta) chiHE_beta));
    change (put_HH (tscale (Ci / im alpha) chiHH));
    change (put_EE (tscale (Ci / im alpha / RtoC beta) delta));
    change (fun o => put_EE (tshift (- (alpha * Ci / im alpha)) (o_chiEE o)) o) ]
  ++ assign_source source ++ update_statements alpha.
(** epsilon = .., lines 757-787, for an Electric bound that is not Magnetic: the source is read before anything changes. *)
Definition assign_epsilon (s : solution) (epsilon : tensor) (magnetic : bool) (alpha : C) (beta : R) : list statement :=
  let o := operators s in
  let epsilon := match bound_chi s with None => epsilon | Some chi => tsub epsilon (TScalar chi) end in
  prepare_statements magnetic alpha beta epsilon (stored_xi o) (stored_zeta o) (stored_mu o) (get_source s).
