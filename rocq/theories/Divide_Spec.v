(** Thinner slices: C196. *)
From Coq Require Import Reals List Arith.
Require Import Verif.Base Verif.Cplx Verif.CSum Verif.Field Verif.Vec_Model Verif.Beam_Model Verif.Beam_Spec Verif.Neglect_Spec Verif.Detour_Spec.
Import ListNotations.
Local Open Scope R_scope.

(** Layers, each given by the thicknesses of the parts into which it is divided, and its medium. *)
Definition layers : Type := list (list R * option sfield).
Definition whole (x : list R) : R := fold_right Rplus 0 x.
(** A slice for each layer, and a slice for each part. *)
Definition coarse (l : layers) : list (R * option sfield) := map (fun x => (whole (fst x), snd x)) l.
Definition fine (l : layers) : list (R * option sfield) := flat_map (fun x => map (fun d => (d, snd x)) (fst x)) l.
(** Parts ahead, at least one per layer, without gain and with a contrast of at most N with the background. *)
Definition proper_layer (b : setup) (N : R) (x : list R * option sfield) : Prop :=
  fst x <> [] /\ (forall d, In d (fst x) -> passive_slice b (d, snd x)) /\ forall p, inside (bshape b) p -> Cmod (index_in b (snd x) p / bn b - 1)%C <= N.
(** The sum of the squares of the thicknesses of the layers. *)
Definition squares (l : layers) : R := fold_right (fun x e => whole (fst x) * whole (fst x) + e) 0 l.
