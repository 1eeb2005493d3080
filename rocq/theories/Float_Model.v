(** Binary64 numbers for the model of python/macromax/utils/ft/grid.py (lines 17-649): numpy computes steps, centers
    and coordinates in IEEE 754 double precision, with every operation rounded to the nearest number and ties to even.
    The grid model is written for any [num]; here it runs on the binary64 numbers of Flocq, including signed zeros,
    infinities and NaN.  Integers of numpy's int64 are represented by the same type: this is exact up to 2^53 in
    magnitude.  Simplified: [nmod] (lines 108 and 114) and divisions by zero, which the grid model turns into an
    exception; the theorems do not use them. *)
From Coq Require Import ZArith Reals.
From Flocq Require Import Core.Core IEEE754.BinarySingleNaN.
From Verif Require Import Base Num Grid_Model.

(** IEEE 754 binary64: 53 bits, exponents below 1024. *)
Definition b64 : Type := binary_float 53 1024.
#[global] Instance prec_53 : Prec_gt_0 53 := eq_refl.
#[global] Instance prec_1024 : Prec_lt_emax 53 1024 := eq_refl.

(** numpy's conversion of a Python integer to a double: the nearest double. *)
Definition b64_of_Z (z : Z) : b64 := binary_normalize 53 1024 prec_53 prec_1024 mode_NE z 0 false.
(** [math.floor]; 0 for infinities and NaN, for which numpy's cast is undefined. *)
Definition b64_floor (x : b64) : Z :=
  match x with
  | B754_finite s m e _ =>
      let v := if s then Z.neg m else Z.pos m in
      if (0 <=? e)%Z then (v * 2 ^ e)%Z else (v / 2 ^ (- e))%Z
  | _ => 0%Z
  end.

(** Double precision arithmetic as the numbers of the grid model. *)
Definition BN : num := {|
  carrier := b64;
  nadd := @Bplus 53 1024 prec_53 prec_1024 mode_NE;
  nsub := @Bminus 53 1024 prec_53 prec_1024 mode_NE;
  nmul := @Bmult 53 1024 prec_53 prec_1024 mode_NE;
  ndiv := @Bdiv 53 1024 prec_53 prec_1024 mode_NE;
  nofZ := b64_of_Z;
  nfloor := b64_floor;
  neqb := fun x y => Beqb x y;
  nleb := fun x y => Bleb x y
|}.
