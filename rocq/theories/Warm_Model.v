(** Model of the initial_field argument of solve and of Solution: python/macromax/solver.py lines 25-89, 100, 136 and 219, where the setter of E, lines 823-832,
    copies it into the array of the field.  The rest of the constructor is that of Whole_Model.
    Simplified: as in Whole_Model; the initial field is an array (a number is an array without axes); the constructor assigns it before it reads the
    material properties, which only decides which of two exceptions is raised. *)
From Coq Require Import Reals List Arith ZArith Bool.
Require Import Verif.Base Verif.Num Verif.Grid_Model.
Require Import Verif.Cplx Verif.CSum Verif.Field Verif.Vec_Model Verif.Solver_Model Verif.Derived_Model Verif.Array_Model Verif.Run_Model Verif.Whole_Model.
Import ListNotations.
Local Open Scope R_scope.
Local Open Scope C_scope.

(** The setter of E for an array, lines 823-832: the values of self.__field_array and the previous update norm. *)
Definition put_E (s : solution) (a : array) : result solution :=
  let o := operators s in
  bind (assign_E (o_vectorial o) (rshape (o_grid o)) (PyFloat (wavenumber s)) (VArray a)) (fun out =>
  Ok (set_prev_norm (set_field s (fun c p => aget out (c :: 0%nat :: p))) Inf)).
(** Solution( ..., initial_field=a), lines 93-268. *)
Definition new_solution_from (u : si) (eps : R) (settled : R * R) (thick : option R) (q : request) (a : array) : result solution :=
  bind (new_solution u eps settled thick q) (fun s => put_E s a).
(** solve( ..., initial_field=a), lines 25-89. *)
Definition solve_from {W} (u : si) (eps : R) (settled : R * R) (thick : option R) (fuel : nat) (q : request) (a : array) (cb : callback_arg W) (rtol : R) (maxiter : option Z)
    (w : W) : result (option (outcome W)) :=
  bind (new_solution_from u eps settled thick q a) (fun s => Ok (solve_function fuel s cb rtol maxiter w)).
