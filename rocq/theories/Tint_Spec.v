(** The same change of the refractive index everywhere in a slice: C199. *)
From Coq Require Import Reals List Arith.
Require Import Verif.Base Verif.Cplx Verif.CSum Verif.Field Verif.Fourier_Model Verif.Vec_Model Verif.Modes_Model Verif.Beam_Model Verif.Beam_Spec Verif.Detour_Spec.
Import ListNotations.
Local Open Scope R_scope.

(** Slices, by thickness and medium (None is the background), each with a number by which its refractive index is changed. *)
Definition tints : Type := list ((R * option sfield) * C).
Definition plain (l : tints) : list (R * option sfield) := map fst l.
Definition tinted (b : setup) (l : tints) : list (R * option sfield) :=
  map (fun y => (fst (fst y), Some (fun p => index_in b (snd (fst y)) p + snd y)%C)) l.
(** The optical path that this adds, and what that should do to a field, for a wavenumber k in a background of refractive index n0. *)
Definition added_path (l : tints) : C := fold_right (fun y z => RtoC (fst (fst y)) * snd y + z)%C (RtoC 0) l.
Definition damping (k : R) (n0 : C) (l : tints) : R := exp (- (k * snd (added_path l / n0)%C)).
Definition tint (k : R) (n0 : C) (l : tints) : C := (RtoC (damping k n0 l) * cis (k * fst (added_path l / n0)))%C.
