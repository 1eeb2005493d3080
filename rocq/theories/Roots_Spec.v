(** Polynomials, their roots, and eigenvalues. *)
From Coq Require Import Reals List Arith Bool Sorted.
Require Import Verif.Base Verif.Cplx Verif.CSum.
Import ListNotations.
Local Open Scope R_scope.
Local Open Scope C_scope.

Fixpoint cpow (x : C) (n : nat) : C := match n with O => RtoC 1 | S n' => x * cpow x n' end.
(** The polynomial with the coefficients l, lowest order first, at x. *)
Definition polynomial (l : list C) (x : C) : C := csum (length l) (fun i => nth i l 0 * cpow x i).
(** The product of (x - r) for the roots r. *)
Definition product_of (roots : list C) (x : C) : C := fold_right (fun r acc => (x - r) * acc) (RtoC 1) roots.
(** These are all roots, with their multiplicity. *)
Definition has_roots (l roots : list C) : Prop := forall x, polynomial l x = last l (RtoC 0) * product_of roots x.

(** Real part first, imaginary part second. *)
Definition cle (x y : C) : Prop := (fst x < fst y)%R \/ (fst x = fst y /\ snd x <= snd y)%R.

(** Coefficients that are not all so small that they are taken for zero; eps is the machine precision.
    For three coefficients: *)
Definition scaled2 (eps : R) (c0 c1 c2 : C) : Prop :=
  c0 = 0 \/ (sqrt eps < Cmod c0)%R \/ (2 * sqrt eps < Cmod c1)%R \/ (eps < Cmod (c0 * c2)%C)%R.
(** For four coefficients: the roots coincide, or are not all within about sqrt eps of their centre. In terms of
    t^3 - 3 q t + 2 r, the monic polynomial centred at the mean of its roots: *)
Definition centred_q (c1 c2 c3 : C) : C := (c2 / c3 / RtoC 3) * (c2 / c3 / RtoC 3) - c1 / c3 / RtoC 3.
Definition centred_r (c0 c1 c2 c3 : C) : C :=
  let a := c2 / c3 / RtoC 3 in a * a * a - a * (c1 / c3) / RtoC 2 + c0 / c3 / RtoC 2.
Definition scaled3 (eps : R) (c0 c1 c2 c3 : C) : Prop :=
  (centred_q c1 c2 c3 = 0 /\ centred_r c0 c1 c2 c3 = 0) \/ (eps < Cmod (centred_q c1 c2 c3))%R \/ (eps * sqrt eps < Cmod (centred_r c0 c1 c2 c3))%R.
Definition scaled (eps : R) (l : list C) : Prop :=
  match l with [c0; c1; c2] => scaled2 eps c0 c1 c2 | [c0; c1; c2; c3] => scaled3 eps c0 c1 c2 c3 | _ => True end.

(** 3x3 matrices. *)
Definition det3 (M : nat -> nat -> C) : C :=
  M 0%nat 0%nat * M 1%nat 1%nat * M 2%nat 2%nat + M 0%nat 1%nat * M 1%nat 2%nat * M 2%nat 0%nat + M 0%nat 2%nat * M 1%nat 0%nat * M 2%nat 1%nat
  - M 0%nat 2%nat * M 1%nat 1%nat * M 2%nat 0%nat - M 0%nat 0%nat * M 1%nat 2%nat * M 2%nat 1%nat - M 0%nat 1%nat * M 1%nat 0%nat * M 2%nat 2%nat.
Definition minus_x (A : nat -> nat -> C) (x : C) : nat -> nat -> C := fun i j => A i j - (if (i =? j)%nat then x else 0).
Definition eigenvalue (A : nat -> nat -> C) (x : C) : Prop :=
  exists v : nat -> C, (exists i, (i < 3)%nat /\ v i <> 0) /\ forall i, (i < 3)%nat -> csum 3 (fun j => A i j * v j) = x * v i.
Definition hermitian (A : nat -> nat -> C) : Prop := forall i j, (i < 3)%nat -> (j < 3)%nat -> A j i = Cconj (A i j).
