(** Beams in opposite directions: C200. *)
From Coq Require Import Reals List Arith.
Require Import Verif.Base Verif.Cplx Verif.CSum Verif.Field Verif.Vec_Model Verif.Beam_Model.
Import ListNotations.
Local Open Scope R_scope.

(** Slices of the same thickness, behind one of the background. *)
Definition outward (d : R) (media : list (option sfield)) : list (R * option sfield) := map (fun m => (d, m)) (None :: media).
(** The same slices as met from the other side. *)
Definition inward (d : R) (media : list (option sfield)) : list (R * option sfield) := outward d (rev media).
(** A vector field as seen from the other side, in the mirrored coordinates. *)
Definition facing (axis : nat) (f : vfield) : vfield := fun c p => if Nat.eqb c axis then Copp (f c p) else f c p.
