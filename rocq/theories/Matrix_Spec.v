(** Linear maps, blocks, and sequences of multiplications. *)
From Coq Require Import Reals List Arith Bool ZArith.
Require Import Verif.Base Verif.Cplx Verif.CSum Verif.Matrix_Model.
Import ListNotations.
Local Open Scope R_scope.
Local Open Scope C_scope.

(** Vectors with the same first n elements. *)
Definition same (n : nat) (v w : vec) : Prop := forall i, (i < n)%nat -> v i = w i.
(** The matrix multiplies vectors as the array a of m rows and n columns. *)
Definition multiplies_as (M : matrix) (a : nat -> nat -> C) : Prop :=
  forall v, exists w, matvec M v = Ok w /\ same (mrows M) w (fun i => csum (mcols M) (fun j => a i j * v j)).
(** The vector [p, n] of twice h elements. *)
Definition stack (h : nat) (p n : vec) : vec := fun i => if (i <? h)%nat then p i else n (i - h)%nat.
(** The inner product. *)
Definition inner (n : nat) (x y : vec) : C := csum n (fun i => Cconj (x i) * y i).
(** A function of n elements to m that scales with its argument. *)
Definition homogeneous (n m : nat) (f : vec -> vec) : Prop :=
  (forall v w, same n v w -> same m (f v) (f w)) /\ forall (c : C) v, same m (f (fun i => c * v i)) (fun i => c * f v i).
(** Operations on a matrix that caches columns: multiplications with or without an array for the result, and setting caching. *)
Inductive operation : Type := Multiply (has_out : bool) (rhs : list vec) | SetCaching (b : bool).
(** An exception leaves the state as it was: none is raised after the value function has been called. *)
Definition operate (f : vec -> vec) (n : nat) (s : cache_state) (op : operation) : cache_state :=
  match op with
  | Multiply o rhs => match cached f n o s rhs with Ok (_, s') => s' | Err _ => s end
  | SetCaching b => set_caching b s
  end.
Definition after (f : vec -> vec) (n : nat) (b : bool) (history : list operation) : cache_state := fold_left (operate f n) history (new_cache b).
(** A multiple of a basis vector. *)
Definition along (n b : nat) (v : vec) : Prop := (b < n)%nat /\ v b <> 0 /\ forall i, (i < n)%nat -> i <> b -> v i = 0.
