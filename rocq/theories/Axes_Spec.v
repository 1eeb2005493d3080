(** What an annotated image should look like. *)
From Coq Require Import Reals String List.
Require Import Verif.Base Verif.Axes_Model.
Import ListNotations.
Local Open Scope R_scope.

Definition white : colour := Rgba 1 1 1 1.
Definition black : colour := Rgba 0 0 0 1.
(** 1, 2 or 5 times a power of ten. *)
Definition round_number (x : R) : Prop := exists d n, (d = 1 \/ d = 2 \/ d = 5) /\ x = d * powerRZ 10 n.
(** The bar is as long as its label says, when the coordinates of the image are in that unit. *)
Definition true_bar (x : artist) (length : R) (u : string) (c : colour) : Prop :=
  exists height, 0 < height /\ x = AnchoredSizeBar length height length u c.
(** The title, if there is any. *)
Definition titles (t : option string) (c : colour) (l : list artist) : Prop :=
  match t with
  | None | Some EmptyString => l = []
  | Some t => l = [AnchoredText t c]
  end.
