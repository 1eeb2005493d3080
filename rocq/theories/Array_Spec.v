(** What tensor and vector fields mean, and what assignments should do. *)
From Coq Require Import Reals List Arith Bool ZArith.
Require Import Verif.Base Verif.Cplx Verif.CSum Verif.Array_Model Verif.Solver_Model.
Import ListNotations.
Local Open Scope R_scope.
Local Open Scope C_scope.

(** The spatial axes have the size of the grid or are singletons. *)
Definition spatial (gs s : list nat) : Prop := Forall2 (fun n d => d = n \/ d = 1%nat) gs s.
(** The element at an index of the full shape: singleton axes are expanded. *)
Definition element (a : array) (p : list nat) : C := aget a (clip (ashape a) p).
(** Fields of nv x nv matrices, or of numbers that stand for multiples of the identity. *)
Definition tensor_array (nv : nat) (gs : list nat) (a : array) : Prop :=
  exists m s, ashape a = m :: m :: s /\ (m = nv \/ m = 1%nat) /\ spatial gs s.
(** Fields of vectors. *)
Definition vector_array (nv : nat) (gs : list nat) (a : array) : Prop := exists s, ashape a = nv :: 1%nat :: s /\ spatial gs s.
(** The element of the tensor at a position. *)
Definition entry (a : array) (i j : nat) (p : list nat) : C :=
  if (nth 0 (ashape a) 0 =? 1)%nat then (if (i =? j)%nat then element a (0%nat :: 0%nat :: p) else 0) else element a (i :: j :: p).
Definition component (a : array) (i : nat) (p : list nat) : C := element a (i :: 0%nat :: p).
(** The matrices can be inverted everywhere. *)
Definition regular (gs : list nat) (a : array) : Prop := forall p, inside gs p ->
  if (nth 0 (ashape a) 0 =? 1)%nat then element a (0%nat :: 0%nat :: p) <> 0 else det3 (fun i j => element a (i :: j :: p)) <> 0.

(** An array and the tensor that stands for it in the model of the solver. *)
Definition represents (gs : list nat) (a : array) (t : tensor) : Prop :=
  match t with
  | TScalar f => exists s, ashape a = 1%nat :: 1%nat :: s /\ spatial gs s /\ forall p, inside gs p -> element a (0%nat :: 0%nat :: p) = f p
  | TMatrix m => exists s, ashape a = 3%nat :: 3%nat :: s /\ spatial gs s /\
      forall i j p, (i < 3)%nat -> (j < 3)%nat -> inside gs p -> element a (i :: j :: p) = m i j p
  end.

(** The field that an array of shape [nv, 1, *gs] holds is F. *)
Definition holds (nv : nat) (gs : list nat) (a : array) (F : nat -> list nat -> C) : Prop :=
  ashape a = nv :: 1%nat :: gs /\ forall c p, (c < nv)%nat -> inside gs p -> aget a (c :: 0%nat :: p) = F c p.
(** Sizes that divide those of the axes. *)
Definition divide_all (s t : list nat) : Prop := Forall2 (fun d n => Nat.divide d n) s t.
(** The real value of a number. *)
Definition real_value (k : pynumber) : R := match k with PyInt z => IZR z | PyFloat r | NpFloat r => r end.
(** numpy.broadcast_to(a, t) works. *)
Definition broadcasts (a : array) (t : list nat) : Prop := (adim a <= length t)%nat /\ spatial t (lpad (length t) (ashape a)).
(** The E property is an array of shape [1|3, *gs] with these values. *)
Definition reads (nv : nat) (gs : list nat) (E : array) (F : nat -> list nat -> C) : Prop :=
  ashape E = nv :: gs /\ forall c p, (c < nv)%nat -> inside gs p -> aget E (c :: p) = F c p.
