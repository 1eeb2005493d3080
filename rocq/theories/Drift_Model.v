(** Model of assigning epsilon to a Solution whose bound is Magnetic: python/macromax/solver.py lines 241-253 (the constructor) and 755-787 (the setter).
    Simplified: exact numbers; the assigned value is a tensor field; the constants of the new preconditioner are arguments of each assignment, as in Run_Model. *)
From Coq Require Import Reals List.
Require Import Verif.Base Verif.Cplx Verif.Field Verif.Vec_Model Verif.Solver_Model Verif.Derived_Model Verif.Run_Model.
Import ListNotations.
Local Open Scope R_scope.
Local Open Scope C_scope.

(** mu + eye * bound_chi_mu, solver.py lines 248-252: eye has 3x3 elements in vectorial problems and 1 in scalar problems. *)
Definition with_magnetic (vectorial : bool) (mu : tensor) (chi : option sfield) : tensor :=
  match chi with
  | None => mu
  | Some x =>
      match mu with
      | TScalar f => if vectorial then TMatrix (fun i j p => f p + eye i j * x p) else TScalar (fun p => f p + x p)
      | TMatrix m => TMatrix (fun i j p => m i j p + eye i j * x p)
      end
  end.
(** Solution.__init__, solver.py lines 133-268. *)
Definition bounded (g : raster) (vectorial magnetic : bool) (k0 : R) (alpha : C) (beta : R) (epsilon xi zeta mu : tensor) (S : vfield)
    (chi chi_mu : option sfield) (initial_field : vfield) : solution :=
  construct g vectorial magnetic k0 alpha beta epsilon xi zeta (with_magnetic vectorial mu chi_mu) S chi initial_field.
(** mu - bound_chi_mu, solver.py lines 780-785. *)
Definition less_magnetic (chi : option sfield) (mu : tensor) : tensor :=
  match chi with None => mu | Some x => tsub mu (TScalar x) end.
(** What is assigned, and what the code makes of it. *)
Record assignment : Type := { a_epsilon : tensor; a_magnetic : bool; a_alpha : C; a_beta : R }.
(** The setter, solver.py lines 755-787. *)
Definition assign (chi_mu : option sfield) (s : solution) (a : assignment) : solution :=
  let o := operators s in
  let epsilon := match bound_chi s with None => a_epsilon a | Some chi => tsub (a_epsilon a) (TScalar chi) end in
  set_prev_norm (set_operators s
    (prepare (o_grid o) (o_vectorial o) (a_magnetic a) (a_alpha a) (a_beta a) epsilon (stored_xi o) (stored_zeta o) (less_magnetic chi_mu (stored_mu o)) (get_source s))) Inf.
(** Repeatedly using the Solution and assigning a permittivity to it. *)
Definition round (u : si) (chi_mu : option sfield) (s : solution) (r : list op * assignment) : solution := assign chi_mu (history u (fst r) s) (snd r).
Definition rounds (u : si) (chi_mu : option sfield) (l : list (list op * assignment)) (s : solution) : solution := fold_left (round u chi_mu) l s.
