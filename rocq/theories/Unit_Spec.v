(** Another unit of length for a beam: C185. *)
From Coq Require Import Reals List Arith.
Require Import Verif.Base Verif.Cplx Verif.Field Verif.Vec_Model Verif.Beam_Model Verif.Beam_Spec.
Import ListNotations.
Local Open Scope R_scope.
Local Open Scope C_scope.

(** The same section when all lengths are a times as large: in a unit that is a times as small. The wavenumber is the inverse of a length. *)
Definition in_unit (a : R) (b : setup) : setup :=
  {| bgrid := {| rshape := rshape (bgrid b); rstep := map (fun x => a * x)%R (rstep (bgrid b)) |};
     bfirst := fun c => (a * bfirst b c)%R; bk := bk b / RtoC a; bn := bn b; baxis := baxis b; bcomp := bcomp b |}.
(** The same action: fields, spectra, and refractive indices have no length in their unit. *)
Definition action_in_unit (a : R) (x : action) : action :=
  match x with Propagate d m => Propagate (a * d)%R m | ReadFt => ReadFt | ReadField => ReadField | SetFt F => SetFt F | SetField f => SetField f end.
(** A distance that is zero, or is not taken for zero in either unit. *)
Definition plain_in (a x : R) : Prop := resolved x /\ resolved (a * x)%R.
(** Actions of which the propagation is in one direction, given by its sign, over distances that are not taken for zero in either unit. *)
Definition onward (sign a : R) (x : action) : Prop :=
  match x with Propagate d _ => (/ 100000000 < sign * d)%R /\ (/ 100000000 < sign * (a * d))%R | _ => True end.
