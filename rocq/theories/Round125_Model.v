(** Model of python/macromax/utils/round125.py on one real number (arrays are processed elementwise).
    Exact real arithmetic; the conversion of the result to [int] for integer arguments (lines 24-29) is the identity on
    the integers 0, 1, 2, 5, 10, ... that are obtained then. *)
From Coq Require Import Reals.
From Flocq Require Import Core.Raux Core.Generic_fmt Core.Round_NE.
Local Open Scope R_scope.

Definition log10 (x : R) : R := ln x / ln 10.
Definition pow10 (x : R) : R := exp (x * ln 10).
(** [np.sign] *)
Definition signR (x : R) : R := if Rlt_dec x 0 then -1 else if Rlt_dec 0 x then 1 else 0.
(** Lines 12-21.  [np.round] rounds half to even: Flocq's [ZnearestE]. *)
Definition round125 (value : R) : R :=
  let value_abs := Rmax (Rabs value) (/ 10 ^ 10) in
  let scale := log10 value_abs in
  let scale := IZR (ZnearestE (3 * scale)) / 3 in
  let order_of_magnitude := pow10 (IZR (Zfloor scale)) in
  let pre_factor := IZR (ZnearestE (pow10 (scale - IZR (Zfloor scale)))) in
  signR value * pre_factor * order_of_magnitude.
