(** What a beam neglects: C194. *)
From Coq Require Import Reals List Arith.
Require Import Verif.Base Verif.Cplx Verif.CSum Verif.Field Verif.Vec_Model Verif.Beam_Model Verif.Beam_Spec.
Import ListNotations.
Local Open Scope R_scope.

(** Slices, by thickness and medium (None is the background), in which nothing is neglected ([through], [vector_through]: Beam_Spec). *)
Definition exact_slice (b : setup) (k : R) (x : R * option sfield) (F : vfield) : vfield :=
  if (bcomp b =? 1)%nat then fun c => through (bgrid b) (bfirst b) (baxis b) k (bn b) (fst x) (snd x) (F c)
  else vector_through (bgrid b) (bfirst b) (baxis b) k (bn b) (fst x) (snd x) F.
Definition exact_slices (b : setup) (k : R) (l : list (R * option sfield)) (F : vfield) : vfield := fold_left (fun F x => exact_slice b k x F) l F.
(** The spectrum in front: vector fields are transverse. *)
Definition exact_start (b : setup) (k : R) (F : vfield) : vfield := if (bcomp b =? 1)%nat then F else transverse_part (bgrid b) (baxis b) k F.
(** A slice ahead, without gain. *)
Definition passive_slice (b : setup) (x : R * option sfield) : Prop :=
  0 < fst x /\ match snd x with None => True | Some n => forall p, inside (bshape b) p -> 0 <= snd (n p / bn b)%C end.
(** The relative error that the tolerances allow in a slice: in the refractive index (1e-8 with respect to the background, 1e-8 + 1e-5 |n| for variations), and in the distance (1e-8). *)
Definition neglected (b : setup) (k : R) (x : R * option sfield) : R :=
  match snd x with
  | None => 0
  | Some n => k * (fst x * (/ 100000000 + (/ 100000000 + / 100000 * Cmod (n [0; 0; 0]%nat)) / Cmod (bn b)) + / 100000000)
  end.
Definition all_neglected (b : setup) (k : R) (l : list (R * option sfield)) : R := fold_right (fun x e => neglected b k x + e) 0 l.
Definition total_thickness (l : list (R * option sfield)) : R := fold_right (fun x d => fst x + d) 0 l.
