(** Vocabulary for the statements about the argument [grid]. *)
From Coq Require Import Reals List ZArith.
From Verif Require Import Base Num Grid_Model Grid_Spec Entry_Model.
From Verif Require Import CSum Vec_Model.
Import ListNotations.
Local Open Scope R_scope.

(** A grid with axes, all of which are read as vectors along that axis, and different points. *)
Definition spatial (g : grid RN) : Prop :=
  regular g /\ multidimensional RN g = true /\
  (forall i, (i < ndim RN g)%nat -> flat RN g i = false /\ step_of g i <> 0).

(** The sampling of space in units of [1 / k0]. *)
Definition sampling (k0 : R) (g : grid RN) : raster :=
  {| rshape := map (points g) (seq 0 (ndim RN g)); rstep := map (fun i => k0 * step_of g i) (seq 0 (ndim RN g)) |}.

(** The elements of an iteration, by index, are these functions of the position. *)
Definition arrays (s : list nat) (cs : list coords) (n : nat) (f : nat -> list nat -> R) : Prop :=
  length cs = n /\ (forall c, In c cs -> broadcasts s c = true) /\
  forall i p, (i < n)%nat -> inside s p -> exists c, nth_error cs i = Some c /\ at_index c p = f i p.
