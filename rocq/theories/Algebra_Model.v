(** Model of the expressions that can be made of matrices.  The class Matrix (python/macromax/matrix.py lines 100-226) extends LinearOperator of scipy,
    from which it inherits the operators +, -, unary -, *, @, and **, and the methods rmatvec, adjoint (H), and transpose (T).  These are modelled
    here as scipy defines them (scipy/sparse/linalg/_interface.py, version 1), with the methods _matvec and _adjoint that Matrix overrides
    (lines 195-210).  Simplified: exact complex numbers; vectors are functions of the index, of which the first elements count. *)
From Coq Require Import Reals List Arith Bool ZArith.
Require Import Verif.Base Verif.Cplx Verif.CSum Verif.Matrix_Model.
Import ListNotations.
Local Open Scope R_scope.
Local Open Scope C_scope.

(** A Matrix (lines 100-226), and the operators of scipy: _SumLinearOperator, _ScaledLinearOperator, _ProductLinearOperator, and _PowerLinearOperator. *)
Inductive operator : Type :=
| Leaf (M : matrix)
| Sum (A B : operator)
| Scaled (A : operator) (alpha : C)
| Product (A B : operator)
| Power (A : operator) (p : nat).
(** The attribute shape. *)
Fixpoint op_shape (O : operator) : nat * nat :=
  match O with
  | Leaf M => (mrows M, mcols M)
  | Sum A _ | Scaled A _ | Power A _ => op_shape A
  | Product A B => (fst (op_shape A), snd (op_shape B))
  end.
Definition pair_eqb (s t : nat * nat) : bool := (fst s =? fst t)%nat && (snd s =? snd t)%nat.
(** __add__, __mul__ and __matmul__ with a scalar or an operator (dot), __neg__, __sub__, and __pow__ with a natural number, of LinearOperator
    (base class of lines 100), with the checks in the constructors.  A multiple of a multiple is merged. *)
Definition op_add (A B : operator) : result operator := if pair_eqb (op_shape A) (op_shape B) then Ok (Sum A B) else Err ValueError.
Definition op_scale (A : operator) (alpha : C) : operator := match A with Scaled A' a => Scaled A' (alpha * a) | _ => Scaled A alpha end.
Definition op_dot (A B : operator) : result operator := if (snd (op_shape A) =? fst (op_shape B))%nat then Ok (Product A B) else Err ValueError.
Definition op_sub (A B : operator) : result operator := op_add A (op_scale B (- (1))).
Definition op_pow (A : operator) (p : nat) : result operator := if (fst (op_shape A) =? snd (op_shape A))%nat then Ok (Power A p) else Err ValueError.

(** The method _power of _PowerLinearOperator. *)
Fixpoint repeated (f : vec -> result vec) (p : nat) (x : vec) : result vec :=
  match p with O => Ok x | Datatypes.S p' => do y <- f x; repeated f p' y end.
(** The product of an operator and a vector, A.matvec(x) and A @ x: lines 195-206 for a Matrix. *)
Fixpoint op_matvec (O : operator) (x : vec) : result vec :=
  match O with
  | Leaf M => matvec M x
  | Sum A B => do y <- op_matvec A x; do z <- op_matvec B x; Ok (fun i => y i + z i)
  | Scaled A alpha => do y <- op_matvec A x; Ok (fun i => alpha * y i)
  | Product A B => do y <- op_matvec B x; op_matvec A y
  | Power A p => repeated (op_matvec A) p x
  end.

(** Arrays of two axes, and the elementwise operations of numpy, with broadcasting. *)
Record array2 : Type := { a_rows : nat; a_cols : nat; a_at : nat -> nat -> C }.
Definition common (m n : nat) : result nat := if (m =? n)%nat then Ok m else if (m =? 1)%nat then Ok n else if (n =? 1)%nat then Ok m else Err ValueError.
Definition clip1 (n i : nat) : nat := if (n =? 1)%nat then 0%nat else i.
Definition elementwise (f : C -> C -> C) (a b : array2) : result array2 :=
  do m <- common (a_rows a) (a_rows b); do n <- common (a_cols a) (a_cols b);
  Ok {| a_rows := m; a_cols := n; a_at := fun i j => f (a_at a (clip1 (a_rows a) i) (clip1 (a_cols a) j)) (a_at b (clip1 (a_rows b) i) (clip1 (a_cols b) j)) |}.
Definition each (f : C -> C) (a : array2) : array2 := {| a_rows := a_rows a; a_cols := a_cols a; a_at := fun i j => f (a_at a i j) |}.
Fixpoint natpow (x : C) (p : nat) : C := match p with O => 1 | Datatypes.S p' => x * natpow x p' end.
(** The property H of an operator: A.adjoint() calls _adjoint, which is an array for a Matrix (lines 208-210).  The operators of scipy combine the
    adjoints of their parts with + and *, and **, which are elementwise for arrays. *)
Fixpoint op_adjoint (O : operator) : result array2 :=
  match O with
  | Leaf M => rmap (fun a => {| a_rows := mcols M; a_cols := mrows M; a_at := a |}) (adjoint_array M)
  | Sum A B => do a <- op_adjoint A; do b <- op_adjoint B; elementwise (fun x y => x + y) a b
  | Scaled A alpha => rmap (each (fun x => x * Cconj alpha)) (op_adjoint A)
  | Product A B => do b <- op_adjoint B; do a <- op_adjoint A; elementwise (fun x y => x * y) b a
  | Power A p => rmap (each (fun x => natpow x p)) (op_adjoint A)
  end.
(** The method rmatvec: LinearOperator._rmatvec calls self.H.matvec, and arrays do not have this method. *)
Fixpoint op_rmatvec (O : operator) (x : vec) : result vec :=
  match O with
  | Leaf M => do _ <- adjoint_array M; Err AttributeError
  | Sum A B => do y <- op_rmatvec A x; do z <- op_rmatvec B x; Ok (fun i => y i + z i)
  | Scaled A alpha => do y <- op_rmatvec A x; Ok (fun i => Cconj alpha * y i)
  | Product A B => do y <- op_rmatvec A x; op_rmatvec B y
  | Power A p => repeated (op_rmatvec A) p x
  end.
(** The product of the property T with a vector: _TransposedLinearOperator. *)
Definition op_transposed (O : operator) (x : vec) : result vec :=
  do y <- op_rmatvec O (fun i => Cconj (x i)); Ok (fun i => Cconj (y i)).
