(** When the results of two array libraries are the same. *)
From Coq Require Import Reals List Arith.
Require Import Verif.Base Verif.Cplx Verif.CSum Verif.Solver_Model Verif.Array_Model.
Import ListNotations.

(** The same shape and the same elements. *)
Definition same_array (a b : array) : Prop := ashape a = ashape b /\ forall p, inside (ashape a) p -> aget a p = aget b p.
(** Both raise an exception, or both give the same array. *)
Definition same_result (x y : result array) : Prop :=
  match x, y with Ok a, Ok b => same_array a b | Err _, Err _ => True | _, _ => False end.
