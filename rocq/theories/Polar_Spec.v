(** Scalar beams and polarised beams: C192. *)
From Coq Require Import Reals List Arith Bool.
Require Import Verif.Base Verif.Cplx Verif.CSum Verif.Field Verif.Vec_Model Verif.Beam_Model.
Import ListNotations.
Local Open Scope C_scope.

(** The vector field that points along one axis, and its size from a scalar field. *)
Definition polarised (axis : nat) (F : vfield) : vfield := fun c p => if (c =? axis)%nat then F 0%nat p else RtoC 0.
(** The same section for scalar fields. *)
Definition scalar_setup (b : setup) : setup := {| bgrid := bgrid b; bfirst := bfirst b; bk := bk b; bn := bn b; baxis := baxis b; bcomp := 1 |}.
Definition polarised_action (axis : nat) (a : action) : action :=
  match a with SetFt F => SetFt (polarised axis F) | SetField f => SetField (polarised axis f) | _ => a end.
