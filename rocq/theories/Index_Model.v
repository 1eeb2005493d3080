(** Model of the property refractive_index of a Solution: python/macromax/solver.py lines 722-730.
    Simplified: exact numbers; the assigned value is an array in the form of a tensor field; the choices of set_epsilon are arguments. *)
From Coq Require Import Reals List.
Require Import Verif.Base Verif.Cplx Verif.Solver_Model Verif.Run_Model.
Local Open Scope C_scope.

(** An operator of numpy that works on all elements of an array, whether these are numbers or the elements of matrices. *)
Definition elementwise (f : C -> C) (t : tensor) : tensor :=
  match t with TScalar x => TScalar (fun p => f (x p)) | TMatrix m => TMatrix (fun i j p => f (m i j p)) end.
(** The getter, lines 722-725: self.epsilon ** 0.5. *)
Definition get_index (s : solution) : tensor := elementwise csqrt (get_epsilon s).
(** The setter, lines 727-730: self.epsilon = new_value ** 2. *)
Definition set_index (s : solution) (n : tensor) (magnetic : bool) (alpha : C) (beta : R) : solution :=
  set_epsilon s (elementwise (fun x => x * x) n) magnetic alpha beta.
