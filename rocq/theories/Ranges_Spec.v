(** Vocabulary for the statements about grids made from ranges in double precision. *)
From Coq Require Import ZArith Reals List.
From Flocq Require Import Core.Core.
From Verif Require Import Base Num Grid_Model Float_Model Float_Spec.
Local Open Scope R_scope.

(** How many steps point [j] of [n] is from the center: in the natural order the center is point [n / 2], in the order of
    the FFT it is the first point, and the second half of the points is at the other side of it. *)
Definition steps (natural : bool) (n j : nat) : Z :=
  if natural then Z.of_nat j - Z.of_nat (n / 2)
  else if Nat.ltb (2 * j) n then Z.of_nat j else Z.of_nat j - Z.of_nat n.
(** The number at position [j] of a range. *)
Definition entry (r : list BN) (j : nat) : R := val (item r j).

(** The numbers of a range, none larger than [M], are equally spaced by [h], to within a deviation [d]. *)
Definition spaced (natural : bool) (r : list BN) (c h d M : R) : Prop :=
  forall j, (j < length r)%nat ->
    finite (item r j) /\ Rabs (entry r j) <= M /\
    Rabs (entry r j - (c + IZR (steps natural (length r) j) * h)) <= d.
(** It never goes back. *)
Definition monotone (r : list BN) : Prop :=
  (forall j l, (j <= l < length r)%nat -> entry r j <= entry r l) \/
  (forall j l, (j <= l < length r)%nat -> entry r l <= entry r j).
(** Neither without points nor with more than can be counted in double precision. *)
Definition countable (r : list BN) : Prop := (1 <= length r)%nat /\ (Z.of_nat (length r) <= 2 ^ 53)%Z.
(** Far from overflow. *)
Definition moderate (M : R) : Prop := M <= bpow radix2 1000.

(** A range that is recognised as being in the natural order: monotone, or with deviations that are small in comparison
    to the spacing. *)
Definition natural_range (r : list BN) (c h d M : R) : Prop :=
  countable r /\ spaced true r c h d M /\
  (monotone r \/ 4 * d <= Rabs h).
(** A range in the order of the FFT. *)
Definition fft_range (r : list BN) (c h d M : R) : Prop :=
  countable r /\ (3 <= length r)%nat /\ spaced false r c h d M /\ 4 * d + 8 * unit_roundoff * M < Rabs h.
(** The error allowed. *)
Definition tolerance (r : list BN) (d M : R) : R :=
  4 * d + 64 * unit_roundoff * M + (INR (length r) + 16) * smallest.
Definition recognisable (natural : bool) (r : list BN) (c h d M : R) : Prop :=
  if natural then natural_range r c h d M else fft_range r c h d M.
