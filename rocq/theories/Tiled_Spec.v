(** Beams that repeat themselves across their sections: C193. *)
From Coq Require Import Reals List Arith.
Require Import Verif.Base Verif.Cplx Verif.CSum Verif.Field Verif.Vec_Model Verif.Beam_Model Verif.Cell_Spec.
Import ListNotations.
Local Open Scope R_scope.

(** A section of r cells along each axis, with the same first point ([repeated_grid], [repeated], [in_cell]: Cell_Spec). *)
Definition repeated_setup (r : list nat) (b : setup) : setup := {| bgrid := repeated_grid r (bgrid b); bfirst := bfirst b; bk := bk b; bn := bn b; baxis := baxis b; bcomp := bcomp b |}.
Definition repeated_medium (s : list nat) (m : option sfield) : option sfield := option_map (fun n p => n (in_cell s p)) m.
Definition repeated_action (s : list nat) (a : action) : action :=
  match a with Propagate d m => Propagate d (repeated_medium s m) | SetField f => SetField (repeated s f) | _ => a end.
(** The spectrum of a field that repeats itself: that of one cell, at the frequencies with that period, multiplied by the number of cells. *)
Definition repeated_spectrum (r s : list nat) (n : nat) (F F' : vfield) : Prop :=
  (forall c k, (c < n)%nat -> inside s k -> F' c (times r k) = (RtoC (INR (fold_right Nat.mul 1%nat r)) * F c k)%C) /\
  (forall c k', (c < n)%nat -> inside (times r s) k' -> (forall k, inside s k -> times r k <> k') -> F' c k' = RtoC 0).
(** A spectrum that is not too weak. *)
Definition in_view (b : setup) (F : vfield) : Prop := exists c q, (c < bcomp b)%nat /\ inside (bshape b) q /\ / 100000000 < Cmod (F c q).
