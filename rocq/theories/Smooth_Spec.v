(** Media that vary along the propagation axis of a beam: C197. *)
From Coq Require Import Reals List Arith.
Require Import Verif.Base Verif.Cplx Verif.CSum Verif.Field Verif.Vec_Model Verif.Beam_Model Verif.Beam_Spec Verif.Divide_Spec.
Import ListNotations.
Local Open Scope R_scope.

(** A medium is given by its refractive index at each depth. Slices of given thicknesses from depth z on have the refractive index at their front. *)
Fixpoint sampled (medium : R -> sfield) (z : R) (ds : list R) : list (R * option sfield) :=
  match ds with [] => [] | d :: ds => (d, Some (medium z)) :: sampled medium (z + d) ds end.
(** Without gain, with a contrast of at most N, and a refractive index that changes no faster than L with depth. *)
Definition smooth_medium (b : setup) (N L : R) (medium : R -> sfield) : Prop :=
  forall z p, inside (bshape b) p -> 0 <= snd (medium z p / bn b)%C /\ Cmod (medium z p / bn b - 1)%C <= N /\ forall z', Cmod (medium z p - medium z' p)%C <= L * Rabs (z - z').
(** Slices ahead, each divided into at least one part. *)
Definition proper_division (dss : list (list R)) : Prop := Forall (fun ds => ds <> [] /\ Forall (fun d => 0 < d) ds) dss.
