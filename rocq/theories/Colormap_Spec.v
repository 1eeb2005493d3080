(** Linear interpolation between colours, without reference to tables. *)
From Coq Require Import Reals List.
Local Open Scope R_scope.

(** Values beyond the range from 0 to 1 are shown as 0 or 1. *)
Definition shown (x y : R) : Prop := (x <= 0 /\ y = 0) \/ (0 <= x <= 1 /\ y = x) \/ (1 <= x /\ y = 1).
(** y is the value at t when the n values c are given at the points p. *)
Definition between (n : nat) (p c : nat -> R) (t y : R) : Prop :=
  exists k, (k + 1 < n)%nat /\ p k <= t <= p (k + 1)%nat /\ p k < p (k + 1)%nat /\ shown (c k + (t - p k) / (p (k + 1)%nat - p k) * (c (k + 1)%nat - c k)) y.
(** Colour j of K is at j / (K - 1) of the range; the first colour is at its start, and the last colour at its end. *)
Definition channel_at (n : nat) (p c : nat -> R) (K j : nat) (y : R) : Prop :=
  (j = 0%nat /\ shown (c 0%nat) y) \/ (j = (K - 1)%nat /\ shown (c (n - 1)%nat) y) \/ between n p c (INR j / (INR K - 1)) y.
