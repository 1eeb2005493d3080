(** Mirror images of beams: C187. *)
From Coq Require Import Reals List Arith Bool.
Require Import Verif.Base Verif.Cplx Verif.CSum Verif.Field Verif.Fourier_Spec Verif.Vec_Model Verif.Symmetry_Spec Verif.Beam_Model.
Import ListNotations.

(** What is done to the mirror image of a section: the fields that are assigned and the media are the mirror images ([mirrored], [opposite]: Symmetry_Spec). *)
Definition mirrored_medium (axis : nat) (s : list nat) (n : sfield) : sfield := fun p => n (opposite axis s p).
Definition mirror_image (v : bool) (axis : nat) (s : list nat) (x y : action) : Prop :=
  match x, y with
  | Propagate d None, Propagate d' None => d' = d
  | Propagate d (Some n), Propagate d' (Some n') => d' = d /\ agree s n' (mirrored_medium axis s n)
  | ReadFt, ReadFt | ReadField, ReadField => True
  | SetField f, SetField f' => vagree 3 s f' (mirrored v axis s f)
  | _, _ => False
  end.
