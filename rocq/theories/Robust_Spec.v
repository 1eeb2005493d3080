(** Vocabulary for the speed of convergence and for the effect of rounding errors. *)
From Coq Require Import Reals List Arith.
Require Import Verif.Cplx Verif.CSum Verif.Field Verif.Fourier_Model Verif.Vec_Model Verif.Solver_Model Verif.Solver_Spec.
Local Open Scope R_scope.

(** The root of the sum of squares over the components and the points of the grid. *)
Definition size (n : nat) (s : list nat) (F : vfield) : R := sqrt (vnorm2 n s F).
(** The size of the difference between a field of the solver and the electric field E. *)
Definition error (n : nat) (s : list nat) (k0 : R) (F E : vfield) : R := size n s (fun c p => electric_field k0 F c p - E c p)%C.

(** Any sequence of fields in which every field follows from the one before, except for errors of at most d0, or relative errors of at most
    d1. *)
Definition perturbed (n : nat) (s : list nat) (k0 : R) (step : nat -> vfield -> vfield) (d0 d1 : R) (X : nat -> vfield) : Prop :=
  forall m, error n s k0 (X (S m)) (electric_field k0 (step m (X m))) <= d0 + d1 * size n s (electric_field k0 (X m)).

(** The part of the squared error that is lost in each iteration: for an absorption of at least [loss], a material that deviates at most
    [contrast] from the background, and an imaginary part of alpha between [low] and [high]. *)
Definition rate (beta loss contrast low high : R) : R :=
  Rmin (loss / (beta * high)) ((1 - (contrast / low) * (contrast / low)) / 2).
(** The factor by which the error drops. *)
Definition factor (beta loss contrast low high : R) : R := sqrt (1 - rate beta loss contrast low high).
