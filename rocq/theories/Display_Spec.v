(** Vocabulary for the statements about colours. *)
From Coq Require Import Reals List.
From Flocq Require Import Core.Raux.
Import ListNotations.
Local Open Scope R_scope.

(** The usual closed formula for the conversion of hue, saturation and value to the channel red (n = 5), green (n = 3)
    and blue (n = 1): value - value * saturation * max (0, min (k, 4 - k, 1)) where k = (n + 6 hue) modulo 6. *)
Definition hsv_channel (n h s v : R) : R :=
  let x := n + 6 * h in
  let k := x - 6 * IZR (Zfloor (x / 6)) in
  v - v * s * Rmax 0 (Rmin (Rmin k (4 - k)) 1).
Definition hsv_colour (h s v : R) : R * R * R := (hsv_channel 5 h s v, hsv_channel 3 h s v, hsv_channel 1 h s v).

Definition max3 (r g b : R) := Rmax (Rmax r g) b.
Definition min3 (r g b : R) := Rmin (Rmin r g) b.
Definition unit_interval (x : R) : Prop := 0 <= x <= 1.
(** Fraction of the sextant of the colour circle. *)
Definition sextant (h : R) : Z := Zfloor (6 * h).
Definition within_sextant (h : R) : R := 6 * h - IZR (sextant h).
