(** Model of assigning epsilon to a Solution, with the choice of the preconditioner: python/macromax/solver.py lines 755-787 and 270-493.
    Simplified: exact numbers; the assigned value is a tensor field; the numbers that scipy.optimize.fmin settles on are arguments of each assignment. *)
From Coq Require Import Reals List.
Require Import Verif.Base Verif.Cplx Verif.Field Verif.Vec_Model Verif.Solver_Model Verif.Derived_Model Verif.Choice_Model Verif.Run_Model.
Import ListNotations.

(** The susceptibility of the bound is subtracted, lines 774-779. *)
Definition less_bound (chi : option sfield) (epsilon : tensor) : tensor :=
  match chi with None => epsilon | Some x => tsub epsilon (TScalar x) end.
(** The setter: lines 755-787, which calls __prepare_preconditioner with what is stored of the other material properties, lines 270-493. *)
Definition assign_epsilon (eps : R) (g : raster) (thick : option R) (s : solution) (epsilon : tensor) (settled : R * R) : solution :=
  let o := operators s in
  let '(alpha, beta) := choose eps (rshape g) (rstep g) (Run_Model.wavenumber s) (less_bound (bound_chi s) epsilon) (stored_xi o) (stored_zeta o) (stored_mu o) settled thick in
  set_epsilon s epsilon (is_magnetic (rshape g) (stored_xi o) (stored_zeta o) (stored_mu o)) alpha beta.
(** What can be done with a Solution: an operation of Run_Model, or an assignment of epsilon. *)
Inductive step := Do (a : op) | Assign (epsilon : tensor) (settled : R * R).
Definition perform_step (u : si) (eps : R) (g : raster) (thick : option R) (s : solution) (a : step) : solution :=
  match a with Do a => perform u s a | Assign epsilon settled => assign_epsilon eps g thick s epsilon settled end.
Definition steps (u : si) (eps : R) (g : raster) (thick : option R) (l : list step) (s : solution) : solution :=
  fold_left (perform_step u eps g thick) l s.
