(** The background of a beam: C198. *)
From Coq Require Import Reals List Arith.
Require Import Verif.Base Verif.Cplx Verif.CSum Verif.Field Verif.Vec_Model Verif.Modes_Model Verif.Beam_Model Verif.Beam_Spec.
Import ListNotations.
Local Open Scope R_scope.

(** A section for scalar fields with a background of refractive index n0, for the wavenumber k0 in vacuum. *)
Definition with_background (g : raster) (first : nat -> R) (axis : nat) (k0 n0 : R) : setup :=
  {| bgrid := g; bfirst := first; bk := RtoC (k0 * n0); bn := RtoC n0; baxis := axis; bcomp := 1 |}.
(** Slices of which the refractive index is given, ahead and without gain. *)
Definition given_slice (g : raster) (x : R * option sfield) : Prop := 0 < fst x /\ exists n, snd x = Some n /\ forall p, inside (rshape g) p -> 0 <= snd (n p).
