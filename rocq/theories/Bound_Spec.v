(** Vocabulary for the statements about absorbing boundaries. *)
From Coq Require Import Reals.
From Verif Require Import Base Num Grid_Model Grid_Spec Bound_Model.
Local Open Scope R_scope.

(** The value that an argument asks for on an axis and a side (0 front, 1 back): a scalar holds everywhere, a vector
    lists the two sides, a 2d-array has one row per axis; singletons are repeated. *)
Definition pick {A} (l : list A) (i : nat) (x : A) : Prop :=
  match l with [y] => x = y | _ => nth_error l i = Some x end.
Definition sided {A} (a : sides_arg A) (axis side : nat) (x : A) : Prop :=
  match a with
  | SScalar y => x = y
  | SVector l => pick l side x
  | SMatrix rows => exists row, pick rows axis row /\ pick row side x
  end.
Definition broadcastable {A} (n : nat) (a : sides_arg A) : Prop :=
  match a with
  | SScalar _ => True
  | SVector l => length l = 1%nat \/ length l = 2%nat
  | SMatrix rows => (length rows = 1%nat \/ length rows = n) /\
      exists c, (c = 1%nat \/ c = 2%nat) /\ (rows <> []) /\ forall r, In r rows -> length r = c
  end.

(** A grid with increasing coordinates: several axes (or one axis given as a sequence), not flattened. *)
Definition upright (g : grid RN) : Prop :=
  regular g /\ multidimensional RN g = true /\
  forall a, (a < ndim RN g)%nat -> 0 < step_of g a /\ origin_at_center RN g a = true.
(** The indices of a sample. *)
Definition inside (g : grid RN) (p : nat -> nat) : Prop := forall a, (a < ndim RN g)%nat -> (p a < points g a)%nat.

(** Distance of the sample with index [j] from the outermost sample at a side. *)
Definition edge_distance (g : grid RN) (axis side j : nat) : R :=
  Rabs (step_of g axis) * INR (match side with O => j | _ => points g axis - 1 - j end).
(** An extinction coefficient [f] of the relative depth, for a boundary of the given thickness, at a distance from
    the edge. *)
Definition profile (f : R -> R) (thick distance : R) : R :=
  if Rlt_dec distance thick then f ((thick - distance) / thick) else 0.

(** [x] is the largest of 0 and the values that satisfy [P]. *)
Definition largest (x : R) (P : R -> Prop) : Prop :=
  0 <= x /\ (forall y, P y -> y <= x) /\ (x = 0 \/ P x).
