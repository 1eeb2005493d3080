(** Matrix algebra. *)
From Coq Require Import Reals List Arith Bool ZArith.
Require Import Verif.Base Verif.Cplx Verif.CSum Verif.Matrix_Model Verif.Matrix_Spec Verif.Algebra_Model.
Import ListNotations.
Local Open Scope R_scope.
Local Open Scope C_scope.

(** What a user can write: matrices M (with the elements a), sums, differences, opposites, multiples, products, and powers. *)
Inductive term : Type :=
| Given (M : matrix) (a : nat -> nat -> C)
| Plus (s t : term) | Minus (s t : term) | Opposite (t : term) | Multiple (c : C) (t : term) | Dot (s t : term) | Pow (t : term) (p : nat).
Fixpoint rows (t : term) : nat :=
  match t with Given M _ => mrows M | Plus s _ | Minus s _ | Opposite s | Multiple _ s | Dot s _ | Pow s _ => rows s end.
Fixpoint cols (t : term) : nat :=
  match t with Given M _ => mcols M | Plus s _ | Minus s _ | Opposite s | Multiple _ s | Pow s _ => cols s | Dot _ t => cols t end.
(** The shapes fit. *)
Fixpoint conformable (t : term) : Prop :=
  match t with
  | Given _ _ => True
  | Plus s t | Minus s t => conformable s /\ conformable t /\ rows s = rows t /\ cols s = cols t
  | Opposite t | Multiple _ t => conformable t
  | Dot s t => conformable s /\ conformable t /\ cols s = rows t
  | Pow t _ => conformable t /\ rows t = cols t
  end.
(** All matrices have the elements that they are said to have. *)
Fixpoint sound (t : term) : Prop :=
  match t with
  | Given M a => multiplies_as M a
  | Plus s t | Minus s t | Dot s t => sound s /\ sound t
  | Opposite t | Multiple _ t | Pow t _ => sound t
  end.
(** The elements of the result according to matrix algebra. *)
Definition product (n : nat) (a b : nat -> nat -> C) : nat -> nat -> C := fun i j => csum n (fun k => a i k * b k j).
Fixpoint power (n : nat) (a : nat -> nat -> C) (p : nat) : nat -> nat -> C :=
  match p with 0%nat => fun i j => if (i =? j)%nat then 1 else 0 | Datatypes.S p' => product n a (power n a p') end.
Fixpoint meaning (t : term) : nat -> nat -> C :=
  match t with
  | Given _ a => a
  | Plus s t => fun i j => meaning s i j + meaning t i j
  | Minus s t => fun i j => meaning s i j - meaning t i j
  | Opposite t => fun i j => - meaning t i j
  | Multiple c t => fun i j => c * meaning t i j
  | Dot s t => product (cols s) (meaning s) (meaning t)
  | Pow t p => power (rows t) (meaning t) p
  end.
(** The operator that Python makes of the expression. *)
Fixpoint evaluate (t : term) : result operator :=
  match t with
  | Given M _ => Ok (Leaf M)
  | Plus s t => do A <- evaluate s; do B <- evaluate t; op_add A B
  | Minus s t => do A <- evaluate s; do B <- evaluate t; op_sub A B
  | Opposite t => do A <- evaluate t; Ok (op_scale A (- (1)))
  | Multiple c t => do A <- evaluate t; Ok (op_scale A c)
  | Dot s t => do A <- evaluate s; do B <- evaluate t; op_dot A B
  | Pow t p => do A <- evaluate t; op_pow A p
  end.
(** Without products and powers. *)
Fixpoint linear (t : term) : Prop :=
  match t with
  | Given _ _ => True
  | Plus s t | Minus s t => linear s /\ linear t
  | Opposite t | Multiple _ t => linear t
  | Dot _ _ | Pow _ _ => False
  end.
