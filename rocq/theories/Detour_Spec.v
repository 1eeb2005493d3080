(** Errors in the media of a beam: C195. *)
From Coq Require Import Reals List Arith.
Require Import Verif.Base Verif.Cplx Verif.CSum Verif.Field Verif.Vec_Model Verif.Beam_Model Verif.Beam_Spec Verif.Neglect_Spec.
Import ListNotations.
Local Open Scope R_scope.

(** The refractive index of a slice at each point. *)
Definition index_in (b : setup) (m : option sfield) (p : list nat) : C := match m with None => bn b | Some n => n p end.
(** The difference between two slices: in thickness, and in the optical path with respect to the background, in phase. *)
Definition detour (b : setup) (k : R) (x y : R * option sfield) (p : list nat) : R :=
  k * (Rabs (fst x - fst y) + Cmod (RtoC (fst x) * (index_in b (snd x) p / bn b - 1) - RtoC (fst y) * (index_in b (snd y) p / bn b - 1))%C).
(** As many slices, with differences that are nowhere larger than some values with sum e. *)
Fixpoint similar (b : setup) (k e : R) (l l' : list (R * option sfield)) : Prop :=
  match l, l' with
  | [], [] => 0 <= e
  | x :: l, y :: l' => exists e1 e2, e = e1 + e2 /\ (forall p, inside (bshape b) p -> detour b k x y p <= e1) /\ similar b k e2 l l'
  | _, _ => False
  end.
