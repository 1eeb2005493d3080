(** Specification of assignments to a mutable grid: what the properties are after each assignment. *)
From Coq Require Import Reals.
From Verif Require Import Base Num Grid_Model Grid_Spec MutableGrid_Model.

(** The values read back from a mutable grid on every axis. *)
Record view : Type := {
  w_shape : nat -> Z; w_step : nat -> R; w_center : nat -> R; w_flat : nat -> bool; w_origin : nat -> bool }.
Definition view_of (g : grid RN) : view :=
  {| w_shape := shape RN g; w_step := step_of g; w_center := center_of g; w_flat := flat RN g;
     w_origin := origin_at_center RN g |}.
Definition same_view (n : nat) (v w : view) : Prop :=
  forall i, (i < n)%nat ->
    w_shape v i = w_shape w i /\ w_step v i = w_step w i /\ w_center v i = w_center w i /\
    w_flat v i = w_flat w i /\ w_origin v i = w_origin w i.

(** The first coordinate that goes with a view: the centre is at index n//2, or midway between the two central points. *)
Definition first_of (cai : nat -> bool) (v : view) (i : nat) : R :=
  (w_center v i - w_step v i *
     (if cai i then IZR (w_shape v i / 2) else (IZR (w_shape v i) - 1) / 2))%R.

Definition requested_int (a : iarg) (i : nat) (x : Z) : Prop :=
  match a with
  | IScalar y => x = y
  | IVector [y] => x = y
  | IVector l => nth_error l i = Some x
  end.

(** [assigned n cai v s w]: the effect of one assignment, one thing at a time. *)
Definition assigned (n : nat) (cai : nat -> bool) (v : view) (s : setter RN) (w : view) : Prop :=
  forall i, (i < n)%nat ->
  match s with
  | SetShape _ a => requested_int a i (w_shape w i) /\ w_step w i = w_step v i /\ w_center w i = w_center v i /\
                    w_flat w i = w_flat v i /\ w_origin w i = w_origin v i
  | SetStep _ a => requested (Some a) i (w_step w i) /\ w_shape w i = w_shape v i /\ w_center w i = w_center v i /\
                    w_flat w i = w_flat v i /\ w_origin w i = w_origin v i
  | SetCenter _ a => requested (Some a) i (w_center w i) /\ w_shape w i = w_shape v i /\ w_step w i = w_step v i /\
                    w_flat w i = w_flat v i /\ w_origin w i = w_origin v i
  | SetFirst _ a => requested (Some a) i (first_of cai w i) /\ w_shape w i = w_shape v i /\ w_step w i = w_step v i /\
                    w_flat w i = w_flat v i /\ w_origin w i = w_origin v i
  | SetFlat _ b => requested_flag b i (w_flat w i) /\ w_shape w i = w_shape v i /\ w_step w i = w_step v i /\
                    w_center w i = w_center v i /\ w_origin w i = w_origin v i
  | SetOrigin _ b => requested_flag b i (w_origin w i) /\ w_shape w i = w_shape v i /\ w_step w i = w_step v i /\
                    w_center w i = w_center v i /\ w_flat w i = w_flat v i
  | SetDtype _ _ => w_shape w i = w_shape v i /\ w_step w i = w_step v i /\
                    w_center w i = w_center v i /\ w_flat w i = w_flat v i /\ w_origin w i = w_origin v i
  end.
Fixpoint assigned_all (n : nat) (cai : nat -> bool) (v : view) (l : list (setter RN)) (w : view) : Prop :=
  match l with
  | [] => same_view n v w
  | s :: l => exists u, assigned n cai v s u /\ assigned_all n cai u l w
  end.

Definition floating (g : grid RN) : Prop := tag RN (step RN g) = DFlt \/ tag RN (center RN g) = DFlt.

(** Assignments that the code carries out without rounding or reshaping the value: a positive shape; a centre that is an
    integer if the grid holds integers; no conversion of the dtype to integers. *)
Definition exact_setter (g : grid RN) (s : setter RN) : Prop :=
  match s with
  | SetShape _ a => forall i x, requested_int a i x -> (1 <= x)%Z
  | SetCenter _ a => floating g \/ forall i x, requested (Some a) i x -> exists z, x = IZR z
  | SetDtype _ d => d = DFlt
  | _ => True
  end.
Fixpoint exact_history (g : grid RN) (l : list (setter RN)) : Prop :=
  match l with
  | [] => True
  | s :: l => exact_setter g s /\ forall g', assign RN g s = Ok g' -> exact_history g' l
  end.
