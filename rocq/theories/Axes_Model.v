(** Model of format_image_axes: python/macromax/utils/display/format_image_axes.py lines 9-46.
    Simplified: an Axes object of matplotlib is represented by its ticks, whether its frame is drawn, and its artists in the order in which they were added;
    fonts and margins are left out.  The text of a label is represented by the number and the string that the f-string puts together. *)
From Coq Require Import Reals String List Bool.
Require Import Verif.Base Verif.Round125_Model.
Import ListNotations.
Local Open Scope R_scope.

Record colour : Type := Rgba { red : R; green : R; blue : R; opacity : R }.
Inductive artist : Type :=
| AnchoredText (text : string) (ink : colour)                                           (* lines 29-30, in the upper left corner *)
| AnchoredSizeBar (size height : R) (number : R) (unit : string) (ink : colour)         (* lines 36-43, in the lower right corner *)
| OtherArtist (what : nat).                                                             (* such as the image itself *)
Record axes : Type := { xticks : list R; yticks : list R; framed : bool; artists : list artist }.
(** The argument scale is a number or an array (line 9). *)
Inductive scale_arg : Type := ScaleNumber (x : R) | ScaleArray (x : list R).

(** axes.set(xticks=[], yticks=[]) and axes.axis('off'): lines 24-25. *)
Definition without_ticks (a : axes) : axes := {| xticks := []; yticks := []; framed := false; artists := artists a |}.
(** axes.add_artist *)
Definition add_artist (a : axes) (x : artist) : axes := {| xticks := xticks a; yticks := yticks a; framed := framed a; artists := (artists a ++ [x])%list |}.
(** Line 22. *)
Definition foreground (white_background : bool) : colour := if white_background then Rgba 0 0 0 1 else Rgba 1 1 1 1.
(** The test of line 33: an array of several elements has no truth value, one of a single element has that of its element. *)
Definition positive (scale : scale_arg) : result (option R) :=
  match scale with
  | ScaleNumber x | ScaleArray [x] => Ok (if Rlt_dec 0 x then Some x else None)
  | ScaleArray _ => Err ValueError
  end.
(** Lines 22-46.  An exception leaves the axes as they are at that point, but they are not returned. *)
Definition format_image_axes (a : axes) (title : option string) (scale : scale_arg) (unit : string) (white_background : bool) : result axes :=
  let ink := foreground white_background in
  let a := without_ticks a in
  let a := match title with
           | Some t => if (0 <? String.length t)%nat then add_artist a (AnchoredText t ink) else a
           | None => a
           end in
  do s <- positive scale;
  match s with
  | Some x => let scale_bar_size := round125 x in
              Ok (add_artist a (AnchoredSizeBar scale_bar_size (scale_bar_size / 5) scale_bar_size unit ink))
  | None => Ok a
  end.
