(** Vocabulary for the statements about the material properties that are given to a Solution. *)
From Coq Require Import Reals List Arith Bool.
Require Import Verif.Base Verif.Cplx Verif.CSum Verif.Field Verif.Fourier_Spec Verif.Vec_Model Verif.Array_Model Verif.Array_Spec Verif.Solver_Model Verif.Solver_Spec.
Import ListNotations.
Local Open Scope R_scope.
Local Open Scope C_scope.

(** An array, as a user gives it, for a material property: any array that broadcasts to the grid is an isotropic property, a field of 3x3
    matrices is an anisotropic property.  Singleton axes are expanded. *)
Definition given (gs : list nat) (a : array) (t : tensor) : Prop :=
  match t with
  | TScalar f => broadcasts a (1%nat :: 1%nat :: gs) /\ forall p, inside gs p -> bget a (0%nat :: 0%nat :: p) = f p
  | TMatrix m => exists s, ashape a = 3%nat :: 3%nat :: s /\ spatial gs s /\
      forall i j p, (i < 3)%nat -> (j < 3)%nat -> inside gs p -> element a (i :: j :: p) = m i j p
  end.
(** A susceptibility of the bound: real or complex numbers on the grid. *)
Definition susceptibility (gs : list nat) (a : array) (chi : list nat -> C) : Prop :=
  spatial gs (ashape a) /\ forall p, inside gs p -> element a p = chi p.
(** t + chi I, where I is the identity. *)
Definition plus_isotropic (t : tensor) (chi : list nat -> C) : tensor :=
  match t with
  | TScalar f => TScalar (fun p => f p + chi p)
  | TMatrix m => TMatrix (fun i j p => m i j p + (if (i =? j)%nat then chi p else 0))
  end.
(** The property with its sign changed where [minus] holds. *)
Definition negated_where (minus : list nat -> Prop) (t t' : tensor) : Prop :=
  match t, t' with
  | TScalar f, TScalar f' => forall p, (minus p -> f' p = - f p) /\ (~ minus p -> f' p = f p)
  | TMatrix m, TMatrix m' => forall i j p, (minus p -> m' i j p = - m i j p) /\ (~ minus p -> m' i j p = m i j p)
  | _, _ => False
  end.
(** The square of the index. *)
Definition square (t : tensor) : tensor :=
  match t with
  | TScalar f => TScalar (fun p => f p * f p)
  | TMatrix m => TMatrix (fun i j p => m i 0%nat p * m 0%nat j p + m i 1%nat p * m 1%nat j p + m i 2%nat p * m 2%nat j p)
  end.
(** The real part of the index is negative; only for isotropic indices. *)
Definition negative_index (n : tensor) (p : list nat) : Prop := match n with TScalar f => (fst (f p) < 0)%R | TMatrix _ => False end.

(** The wave equation in a uniform permeability mu, which can be complex: curl curl E / mu - k0^2 eps E = S. *)
Definition wave_equation_in (mu : C) (vectorial : bool) (g : raster) (k0 : R) (eps : tensor) (E S : vfield) : Prop :=
  vagree (if vectorial then 3 else 1) (rshape g)
    (fun c p => curl_curl_op vectorial g E c p / mu - RtoC (k0 * k0) * tapply eps E c p) S.
