(** Vocabulary for problems that do not vary along one of the three directions of space. *)
From Coq Require Import Reals List Arith.
Require Import Verif.Cplx Verif.CSum Verif.Field Verif.Fourier_Model Verif.Vec_Model Verif.Solver_Model.
Local Open Scope R_scope.
Local Open Scope C_scope.

(** A field that points along the axis everywhere, *)
Definition perpendicular (axis : nat) (F : vfield) : Prop := forall c p, (c < 3)%nat -> c <> axis -> F c p = 0.
(** and a field that has no component along the axis. *)
Definition in_plane (axis : nat) (F : vfield) : Prop := forall p, F axis p = 0.
(** A material property that keeps fields along the axis along the axis, and fields in the plane in the plane, *)
Definition straight (axis : nat) (t : tensor) : Prop := match t with
  | TScalar _ => True
  | TMatrix m => forall i p, (i < 3)%nat -> i <> axis -> m i axis p = 0 /\ m axis i p = 0
  end.
(** and one that turns fields along the axis into fields in the plane, and the other way around. *)
Definition turning (axis : nat) (t : tensor) : Prop := match t with
  | TScalar f => forall p, f p = 0
  | TMatrix m => forall p, m axis axis p = 0 /\ forall i j, (i < 3)%nat -> (j < 3)%nat -> i <> axis -> j <> axis -> m i j p = 0
  end.
