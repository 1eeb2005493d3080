(** What matrices, and assignments to their elements, should do; independent of how they are stored. *)
From Coq Require Import Reals List Arith Bool.
Require Import Verif.Base Verif.Cplx Verif.CSum Verif.Element_Model.
Import ListNotations.

(** The matrix reports r rows and c columns, and multiplies vectors of c numbers with the elements A, and no others. *)
Definition multiplies (m : mat) (r c : nat) (A : nat -> nat -> C) : Prop :=
  m_rows m = r /\ m_cols m = c
  /\ (forall v, exists w, product m c v = Ok w /\ forall i, (i < r)%nat -> w i = csum c (fun j => A i j * v j)%C)
  /\ (forall n v, n <> c -> product m n v = Err ValueError).
(** No vector whatsoever can be multiplied. *)
Definition useless (m : mat) : Prop := forall n v, exists e, product m n v = Err e.

(** The last number that was assigned to an element. *)
Fixpoint latest (l : list assignment) (i j : nat) (x : C) : C :=
  match l with
  | [] => x
  | a :: l => latest l i j (if (Nat.eqb i (a_row a) && Nat.eqb j (a_col a))%bool then v_number (a_value a) else x)
  end.
(** The numbers an array of some type can hold: integers, real numbers, or all. *)
Definition holds (k : kind) (v : value) : Prop :=
  match k with
  | Complexes => True
  | Reals => v_kind v <> Complexes /\ snd (v_number v) = 0%R
  | Ints => v_kind v = Ints /\ snd (v_number v) = 0%R
  end.
(** The matrix reads as r by r numbers A, one by one and as an array. *)
Definition reads (m : mat) (r : nat) (A : nat -> nat -> C) : Prop :=
  forall i j, (i < r)%nat -> (j < r)%nat -> element m i j = Ok (A i j) /\ array_element m i j = Ok (A i j).
