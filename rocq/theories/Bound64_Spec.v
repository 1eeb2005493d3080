(** Vocabulary for the statements about absorbing boundaries in double precision. *)
From Coq Require Import ZArith Reals List.
From Flocq Require Import Core.Core IEEE754.BinarySingleNaN.
From Verif Require Import Base Num Grid_Model Float_Model Float_Spec.

(** A finite double that is zero or neither extremely small nor extremely large. *)
Definition moderate (x : BN) : Prop := finite x /\ (val x = 0 \/ bpow radix2 (-300) <= Rabs (val x) <= bpow radix2 300)%R.
(** A grid with several axes (or one axis given as a sequence), increasing coordinates, and moderate numbers. *)
Definition upright64 (g : grid BN) : Prop :=
  ordinary g /\ forall a, (a < ndim BN g)%nat -> natural_order g a /\ finite (spacing g a) /\ (0 < val (spacing g a))%R /\
    forall j, (Z.of_nat j < shape BN g a)%Z -> moderate (coordinate g a j).
(** The indices of a sample. *)
Definition inside64 (g : grid BN) (p : nat -> nat) : Prop := forall a, (a < ndim BN g)%nat -> (Z.of_nat (p a) < shape BN g a)%Z.
(** The outermost sample at a side (0 front, 1 back) of an axis. *)
Definition edge64 (g : grid BN) (axis side : nat) : BN :=
  coordinate g axis (match side with O => 0%nat | _ => (Z.to_nat (shape BN g axis) - 1)%nat end).
