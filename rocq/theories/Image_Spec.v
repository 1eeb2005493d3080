(** Vocabulary for the statements about images. *)
From Coq Require Import ZArith List.
Require Import Verif.Base Verif.Num Verif.Display_Model Verif.Image_Model.
Require Verif.CSum.
Import ListNotations.

(** The number of the axis, of n, that the argument stands for: negative numbers count from the end. *)
Definition stands_for (n : nat) (axis : Z) (k : nat) : Prop := (k < n)%nat /\ (axis = Z.of_nat k \/ axis = Z.of_nat k - Z.of_nat n)%Z.
(** An image of the pixels of shape before ++ after with n channels in between; the colour of the pixel at the indexes i ++ j. *)
Definition has_pixels {N : num} (a : image N) (before after : list nat) (n : nat) (colour : list nat -> list nat -> list N) : Prop :=
  ishape a = before ++ n :: after /\
  forall i j c, CSum.inside before i -> CSum.inside after j -> (c < n)%nat -> nth_error (colour i j) c = Some (iget a (i ++ c :: j)).
(** The channels of a pixel of an image. *)
Definition channels_at {N : num} (a : image N) (n : nat) (i j : list nat) : list N := map (fun c => iget a (i ++ c :: j)) (seq 0 n).
(** The hue, the saturation and the value of the stacked channels of a pixel, and the alpha channel if there is one. *)
Definition hsv_and {N : num} (channels : list N) (alpha : option N) : list N := rgb2hsv_image N channels ++ match alpha with None => [] | Some x => [x] end.
(** Going around from red to green to blue, the channels increase from the least one on. *)
Definition increasing (r g b : Z) : Prop := (r < g < b \/ g < b < r \/ b < r < g)%Z.
(** The difference between the largest and the least channel. *)
Definition spread_of (r g b : Z) : Z := (Z.max r (Z.max g b) - Z.min r (Z.min g b))%Z.
