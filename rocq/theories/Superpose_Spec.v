(** Superposition of beams: C188. *)
From Coq Require Import Reals List Arith.
Require Import Verif.Base Verif.Cplx Verif.CSum Verif.Field Verif.Vec_Model Verif.Beam_Model.
Import ListNotations.
Local Open Scope R_scope.
Local Open Scope C_scope.

(** x F + y H. *)
Definition superposed (x y : C) (F H : vfield) : vfield := fun c p => x * F c p + y * H c p.
(** Histories without assignments. *)
Definition passes (a : action) : Prop := match a with Propagate _ _ | ReadFt | ReadField => True | _ => False end.
(** Media without structure, as far as the code can tell: None is the background. *)
Definition flat_medium (s : list nat) (a : action) : Prop :=
  match a with Propagate _ (Some n) => forall p, inside s p -> n p = n [0; 0; 0]%nat | Propagate _ None | ReadFt | ReadField => True | _ => False end.
(** A section with a spectrum that is not too weak, or with a single point. *)
Definition in_sight (b : setup) (F : vfield) : Prop :=
  (exists c q, (c < bcomp b)%nat /\ inside (bshape b) q /\ (/ 100000000 < Cmod (F c q))%R) \/ bshape b = [1; 1; 1]%nat.
