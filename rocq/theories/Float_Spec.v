(** Vocabulary for the statements about grids in double precision. *)
From Coq Require Import ZArith Reals List.
From Flocq Require Import Core.Core IEEE754.BinarySingleNaN.
From Verif Require Import Base Num Grid_Model Float_Model.

(** The real number that a double stands for, and that it is one: neither infinite nor NaN. *)
Definition val (x : BN) : R := B2R x.
Definition finite (x : BN) : Prop := is_finite x = true.
(** The double nearest to the fraction [p / q]: what Python reads for a decimal literal. *)
Definition literal (p q : Z) : BN := ndiv BN (nofZ BN p) (nofZ BN q).

(** Element [j] of the range [g[axis]]. *)
Definition coordinate (g : grid BN) (axis j : nat) : BN := nth j (axis_range BN g axis) (B754_nan : b64).
Definition spacing (g : grid BN) (axis : nat) : BN := at_ BN (step BN g) axis.
Definition middle (g : grid BN) (axis : nat) : BN := at_ BN (center BN g) axis.

(** An axis as the constructor makes it: between 1 and 2^53 points, in the natural or in the FFT order. *)
Definition sized (g : grid BN) (axis : nat) : Prop := (1 <= shape BN g axis <= 2 ^ 53)%Z.
Definition natural_order (g : grid BN) (axis : nat) : Prop := origin_at_center BN g axis = true.
Definition fft_order (g : grid BN) (axis : nat) : Prop := origin_at_center BN g axis = false.
(** The center is one of the points: the default, or an odd number of points. *)
Definition center_is_point (g : grid BN) (axis : nat) : Prop :=
  center_at_index BN g axis = true \/ Z.odd (shape BN g axis) = true.

(** The unit roundoff 2^-53 and the distance between the smallest doubles. *)
Definition unit_roundoff : R := bpow radix2 (-53).
Definition smallest : R := bpow radix2 (-1074).
(** The smallest magnitude at which doubles have all their 53 bits. *)
Definition normal (x : R) : Prop := (bpow radix2 (-1022) <= Rabs x)%R.

(** The arguments [Grid(shape=, step=, extent=, first=, center=, last=)] with one value per axis (or absent) and the
    default flags. *)
Definition call (sh st ex fi ce la : option (dt * list BN)) : args BN :=
  let v o := match o with Some (d, l) => Some (AVector BN d l) | None => None end in
  {| a_shape := v sh; a_step := v st; a_extent := v ex; a_first := v fi; a_center := v ce; a_last := v la;
     a_include_last := BScalar false; a_ndim := None; a_flat := BScalar false;
     a_origin_at_center := BScalar true; a_center_at_index := BScalar true |}.
(** The same call in exact arithmetic. *)
Definition exact_arg (a : option (arg BN)) : option (arg RN) :=
  match a with
  | None => None
  | Some (AScalar _ d x) => Some (AScalar RN d (val x))
  | Some (AVector _ d l) => Some (AVector RN d (map val l))
  end.
Definition exact (a : args BN) : args RN :=
  {| a_shape := exact_arg (a_shape BN a); a_step := exact_arg (a_step BN a); a_extent := exact_arg (a_extent BN a);
     a_first := exact_arg (a_first BN a); a_center := exact_arg (a_center BN a); a_last := exact_arg (a_last BN a);
     a_include_last := a_include_last BN a; a_ndim := a_ndim BN a; a_flat := a_flat BN a;
     a_origin_at_center := a_origin_at_center BN a; a_center_at_index := a_center_at_index BN a |}.

(** Where point [j] would be in exact arithmetic: whole steps from the center. *)
Definition position (g : grid BN) (axis j : nat) : R :=
  let n := shape BN g axis in
  (val (middle g axis) +
   (INR j - (if center_at_index BN g axis then IZR (n / 2) else IZR (n - 1) / 2)) * val (spacing g axis))%R.
(** The size of the numbers involved: the center and the extent of the range. *)
Definition magnitude (g : grid BN) (axis : nat) : R :=
  (Rabs (val (middle g axis)) + IZR (shape BN g axis) * Rabs (val (spacing g axis)))%R.

(** Numbers of points as an argument, and the value of a list argument on an axis. *)
Definition counts (l : list Z) : option (dt * list BN) := Some (DInt, map (nofZ BN) l).
Definition counted (l : list Z) : Prop := List.Forall (fun n => (1 <= n <= 2 ^ 53)%Z) l.
Definition item (l : list BN) (axis : nat) : BN := nth axis l (nofZ BN 0%Z).
(** The center that goes with a first point and a step does not overflow. *)
Definition fits (f s : BN) (n : Z) : Prop := finite (nadd BN f (nmul BN (nofZ BN (n / 2)) s)).
(** The number of steps in an extent, in exact arithmetic, for positive numbers and fewer than 2^53 points. *)
Definition quotient (e s : BN) : R := (val e / val s)%R.
Definition quotient_ok (e s : BN) : Prop :=
  finite e /\ finite s /\ (0 < val e)%R /\ (0 < val s)%R /\ (quotient e s <= IZR (2 ^ 53))%R.

(** An extent whose part per point is not denormal. *)
Definition divisible (e : BN) (n : Z) : Prop := finite e /\ normal (val e / IZR n)%R.
(** A grid built from sequences, with at least one axis and a step for every axis. *)
Definition ordinary (g : grid BN) : Prop :=
  (1 <= ndim BN g)%nat /\ multidimensional BN g = true /\ short_step BN g = false /\
  forall i, (i < ndim BN g)%nat -> sized g i.
(** An extent that is neither tiny nor huge: its inverse is an ordinary double too. *)
Definition invertible (g : grid BN) (i : nat) : Prop :=
  finite (spacing g i) /\
  (bpow radix2 (-1000) <= Rabs (IZR (shape BN g i) * val (spacing g i)) <= bpow radix2 1000)%R.

(** [g[axis]] as a list of doubles, and equality of doubles as Python's [==] sees it. *)
Definition same_double (x y : BN) : Prop := neqb BN x y = true.
Definition different_double (x y : BN) : Prop := neqb BN x y = false.
