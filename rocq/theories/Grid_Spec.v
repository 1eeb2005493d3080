(** Vocabulary for the statements about grids: argument values and what a caller reads back. *)
From Coq Require Import Reals.
From Verif Require Import Base Num Grid_Model.

(** [requested arg i x]: the argument was passed and asks for the value [x] on axis [i]: a scalar or a one-element
    sequence asks for the same value on every axis, a longer sequence has one value per axis. *)
Definition requested (a : option (arg RN)) (i : nat) (x : R) : Prop :=
  match a with
  | None => False
  | Some (AScalar _ _ y) => x = y
  | Some (AVector _ _ [y]) => x = y
  | Some (AVector _ _ l) => nth_error l i = Some x
  end.
Definition requested_flag (b : barg) (i : nat) (x : bool) : Prop :=
  match b with
  | BScalar y => x = y
  | BVector [y] => x = y
  | BVector l => nth_error l i = Some x
  end.

(** A grid as the constructor leaves it when the step has one entry per axis: at least one point per axis, and a grid
    that was built from scalars only has a single axis. *)
Definition regular (g : grid RN) : Prop :=
  short_step RN g = false /\
  (multidimensional RN g = false -> ndim RN g = 1%nat) /\
  (forall i, (i < ndim RN g)%nat -> (1 <= shape RN g i)%Z).

(** Observations. *)
Definition points (g : grid RN) (i : nat) : nat := Z.to_nat (shape RN g i).
Definition step_of (g : grid RN) (i : nat) : R := at_ RN (step RN g) i.
Definition center_of (g : grid RN) (i : nat) : R := at_ RN (center RN g) i.

(** [g[axis]] for a grid with axes; the only axis of a grid made from scalars as a list of its elements. *)
Definition coordinates (g : grid RN) (axis : nat) : result (list R) :=
  if multidimensional RN g then getitem_axis RN g (Z.of_nat axis)
  else fold_right (fun j rest => do x <- getitem_axis RN g (Z.of_nat j); do l <- rest; Ok (x ++ l))
         (Ok []) (seq 0 (points g axis)).

(** The same shape, spacing, centre and flags on axis [i] of [g] and axis [j] of [h]. *)
Definition same_axis (g : grid RN) (i : nat) (h : grid RN) (j : nat) : Prop :=
  shape RN g i = shape RN h j /\ step_of g i = step_of h j /\ center_of g i = center_of h j /\
  flat RN g i = flat RN h j /\ origin_at_center RN g i = origin_at_center RN h j /\
  center_at_index RN g i = center_at_index RN h j.

(** What [==] compares: type, attributes of every axis and the dtype. *)
Definition same_grid (g h : grid RN) : Prop :=
  ndim RN g = ndim RN h /\ multidimensional RN g = multidimensional RN h /\
  (forall i, (i < ndim RN g)%nat -> same_axis g i h i).

(** Operands of the arithmetic: the value they have on axis [i], and whether their length suits the grid. *)
Definition operand_value (o : operand RN) (i : nat) (x : R) : Prop :=
  match o with
  | OScalar _ _ y => x = y
  | OArray _ _ l | OSequence _ _ l => match l with [y] => x = y | _ => nth_error l i = Some x end
  end.
Definition operand_fits (g : grid RN) (o : operand RN) : Prop :=
  match o with
  | OScalar _ _ _ => True
  | OArray _ _ l | OSequence _ _ l => length l = 1%nat \/ length l = ndim RN g
  end.
Definition is_sequence (o : operand RN) : bool := match o with OSequence _ _ _ => true | _ => false end.

(** The shape and the flags of two grids are equal. *)
Definition same_layout (g h : grid RN) : Prop :=
  ndim RN g = ndim RN h /\ multidimensional RN g = multidimensional RN h /\
  forall i, (i < ndim RN g)%nat ->
    shape RN g i = shape RN h i /\ flat RN g i = flat RN h i /\
    origin_at_center RN g i = origin_at_center RN h i /\ center_at_index RN g i = center_at_index RN h i.

(** A uniformly spaced vector of [n] numbers, in increasing index order or as numpy.fft.ifftshift would order it. *)
Definition uniform (x0 s : R) (n : nat) : list R := map (fun j => (x0 + INR j * s)%R) (seq 0 n).
Definition is_range (r : list R) : Prop :=
  exists x0 s n, (1 <= n)%nat /\
    (r = uniform x0 s n \/
     (length r = n /\ forall j, (j < n)%nat -> nth j r 0%R = nth ((j + n / 2) mod n) (uniform x0 s n) 0%R)).
