(** Displacing beams: C186. *)
From Coq Require Import Reals List Arith.
Require Import Verif.Base Verif.Cplx Verif.CSum Verif.Field Verif.Fourier_Model Verif.Fourier_Spec Verif.Vec_Model Verif.Beam_Model Verif.Beam_Spec.
Import ListNotations.
Local Open Scope R_scope.
Local Open Scope C_scope.

(** Fields and media that are displaced by z points on the periodic grid, *)
Definition displaced (s z : list nat) (f : sfield) : sfield := fun p => f (wrap_sub s p z).
(** and a spectrum that is that of a displaced field. *)
Definition displaced_ft (s z : list nat) (F : sfield) : sfield := fun q => F q * cis (- phase s z q).
(** What is done to the displaced section. *)
Definition displaced_action (s z : list nat) (x : action) : action :=
  match x with
  | Propagate d None => Propagate d None
  | Propagate d (Some n) => Propagate d (Some (displaced s z n))
  | ReadFt => ReadFt | ReadField => ReadField
  | SetFt F => SetFt (fun c => displaced_ft s z (F c))
  | SetField f => SetField (fun c => displaced s z (f c))
  end.
(** A medium that is uniform, or has contrast with respect to every point: there is another point of which the refractive index is not close to that of the first. *)
Definition contrasted (s : list nat) (n : sfield) : Prop :=
  (forall p p', inside s p -> inside s p' -> n p = n p') \/
  (forall p, inside s p -> exists p', inside s p' /\ (/ 100000000 + / 100000 * Cmod (n p) < Cmod (n p' - n p)%C)%R).
Definition clear_cut (s : list nat) (x : action) : Prop := match x with Propagate _ (Some n) => contrasted s n | _ => True end.
