(** Slices without gain or loss: C201. *)
From Coq Require Import Reals List Arith.
Require Import Verif.Base Verif.Cplx Verif.CSum Verif.Field Verif.Vec_Model Verif.Robust_Spec Verif.Beam_Model Verif.Beam_Spec Verif.Nearby_Spec Verif.Neglect_Spec.
Import ListNotations.
Local Open Scope R_scope.

Definition lossless_slice (b : setup) (x : R * option sfield) : Prop :=
  0 < fst x /\ match snd x with None => True | Some n => forall p, inside (bshape b) p -> snd (n p / bn b)%C = 0 end.
(** How far the field behind slices may be off for a field f in front (C194). *)
Definition tolerance (b : setup) (k : R) (l : list (R * option sfield)) (f : vfield) : R :=
  (all_neglected b k l + k * / 100000000) * size (bcomp b) (bshape b) f + INR (slices (there l) + 1) * / 100000000.
