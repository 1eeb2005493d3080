(** Model of python/macromax/utils/ft/grid.py: class [MutableGrid] (lines 652-766).
    A mutable grid has the attributes of a [Grid]; the setters return the object after the assignment. *)
From Verif Require Import Base Num Grid_Model.

Section MutableGrid.
  Variable N : num.
  Local Notation grid := (grid N).

  (** Arguments of the shape setter: integers. *)
  Inductive iarg : Type := IScalar : Z -> iarg | IVector : list Z -> iarg.
  Definition to_ndim_i (n : nat) (a : iarg) : result (nat -> Z) :=
    match a with
    | IScalar z => Ok (fun _ => z)
    | IVector [z] => Ok (fun _ => z)
    | IVector l => if Nat.eqb (length l) n then Ok (fun i => nth i l 0%Z) else Err ValueError
    end.

  (** [MutableGrid(...)], lines 658-688: the constructor of Grid. *)
  Definition mutable_construct (a : args N) : result grid := construct N a.
  (** [Grid.mutable], line 589. *)
  Definition mutable (g : grid) : result grid := mutable_construct (dict N g).

  (** [dtype], lines 743-746: [(self.step[0] + self.center[0]).dtype]; an IndexError without axes. *)
  Definition dtype (g : grid) : result dt :=
    if Nat.eqb (ndim N g) 0 then Err IndexError else Ok (join (tag N (step N g)) (tag N (center N g))).
  (** [astype]: truncates when converting to integers. *)
  Definition astype (d : dt) (v : vec N) : vec N :=
    match d, tag N v with
    | DInt, DFlt => {| tag := DInt; at_ := fun i => nofZ N (ntrunc (at_ N v i)) |}
    | _, _ => {| tag := d; at_ := at_ N v |}
    end.

  Definition upd_shape (g : grid) (s : nat -> Z) : grid :=
    {| ndim := ndim N g; shape := s; step := step N g; center := center N g; flat := flat N g;
       origin_at_center := origin_at_center N g; center_at_index := center_at_index N g;
       multidimensional := multidimensional N g; short_step := short_step N g |}.
  Definition upd_step (g : grid) (s c : vec N) : grid :=
    {| ndim := ndim N g; shape := shape N g; step := s; center := c; flat := flat N g;
       origin_at_center := origin_at_center N g; center_at_index := center_at_index N g;
       multidimensional := multidimensional N g; short_step := false |}.
  Definition upd_center (g : grid) (c : vec N) : grid :=
    {| ndim := ndim N g; shape := shape N g; step := step N g; center := c; flat := flat N g;
       origin_at_center := origin_at_center N g; center_at_index := center_at_index N g;
       multidimensional := multidimensional N g; short_step := short_step N g |}.
  Definition upd_flags (g : grid) (f o : nat -> bool) : grid :=
    {| ndim := ndim N g; shape := shape N g; step := step N g; center := center N g; flat := f;
       origin_at_center := o; center_at_index := center_at_index N g;
       multidimensional := multidimensional N g; short_step := short_step N g |}.

  (** Lines 694-697 (no check that the shape is positive). *)
  Definition set_shape (g : grid) (a : iarg) : result grid :=
    do s <- to_ndim_i (ndim N g) a; Ok (upd_shape g s).
  (** Lines 703-706: the new step is stored, then the center gets the dtype that follows from it. *)
  Definition set_step (g : grid) (a : arg N) : result grid :=
    do s <- to_ndim N (ndim N g) a;
    let g1 := upd_step g s (center N g) in
    do d <- dtype g1;
    Ok (upd_step g s (astype d (center N g))).
  (** Lines 712-714: converted to the present dtype. *)
  Definition set_center (g : grid) (a : arg N) : result grid :=
    do c <- to_ndim N (ndim N g) a;
    do d <- dtype g;
    Ok (upd_center g (astype d c)).
  (** Lines 720-722 and 728-730. *)
  Definition set_flat (g : grid) (b : barg) : result grid :=
    do f <- to_ndim_b (ndim N g) b; Ok (upd_flags g f (origin_at_center N g)).
  Definition set_origin_at_center (g : grid) (b : barg) : result grid :=
    do o <- to_ndim_b (ndim N g) b; Ok (upd_flags g (flat N g) o).
  (** Line 741: [self._center = super().center + self._to_ndim(new_first) - self.first].  The dtype of [first]
      (lines 394-401) is floating point when half a step has to be added and some step is not even. *)
  Definition first_tag (g : grid) : dt :=
    let d := join (tag N (center N g)) (tag N (step N g)) in
    if existsb (fun i => negb (center_at_index N g i) && Z.even (shape N g i))%bool (axes (ndim N g)) then
      if vall (ndim N g) (fun i => neqb N (nmod (at_ N (step N g) i) (nofZ N 2)) (nofZ N 0)) then d else DFlt
    else d.
  Definition set_first (g : grid) (a : arg N) : result grid :=
    do f <- to_ndim N (ndim N g) a;
    Ok (upd_center g (vsub N (vadd N (center N g) f) {| tag := first_tag g; at_ := first N g |})).
  (** Lines 748-752. *)
  Definition set_dtype (g : grid) (d : dt) : grid :=
    {| ndim := ndim N g; shape := shape N g; step := astype d (step N g); center := astype d (center N g); flat := flat N g;
       origin_at_center := origin_at_center N g; center_at_index := center_at_index N g;
       multidimensional := multidimensional N g; short_step := short_step N g |}.

  (** Histories of assignments. *)
  Inductive setter : Type :=
  | SetShape (a : iarg) | SetStep (a : arg N) | SetCenter (a : arg N) | SetFirst (a : arg N)
  | SetFlat (b : barg) | SetOrigin (b : barg) | SetDtype (d : dt).
  Definition assign (g : grid) (s : setter) : result grid :=
    match s with
    | SetShape a => set_shape g a
    | SetStep a => set_step g a
    | SetCenter a => set_center g a
    | SetFirst a => set_first g a
    | SetFlat b => set_flat g b
    | SetOrigin b => set_origin_at_center g b
    | SetDtype d => Ok (set_dtype g d)
    end.
  Definition assign_all (g : grid) (l : list setter) : result grid :=
    fold_left (fun r s => do g <- r; assign g s) l (Ok g).

  (** In-place arithmetic, lines 754-766.  Python evaluates [g += t] as [g = g.__iadd__(t)]: the result consists of the
      object after the call and of the value to which the name [g] is bound.  [self.center += x] adds in place to a copy
      of the array (numpy raises a TypeError when a floating point value would have to be stored in integers)
      and assigns the sum to the property.  There is no return statement. *)
  Inductive py_value : Type := PNone | PGrid (g : grid) | PMutableGrid (g : grid).
  Definition inplace (op : vec N -> vec N -> vec N) (v : vec N) (n : nat) (o : operand N) : result (vec N) :=
    do t <- to_ndim N n (operand_arg N o);
    match tag N v, tag N t with
    | DInt, DFlt => Err TypeError
    | _, _ => Ok {| tag := tag N v; at_ := at_ N (op v t) |}
    end.
  Definition assign_center (g : grid) (c : vec N) : result grid := do d <- dtype g; Ok (upd_center g (astype d c)).
  Definition assign_step (g : grid) (s : vec N) : result grid :=
    do d <- dtype (upd_step g s (center N g)); Ok (upd_step g s (astype d (center N g))).
  Definition iadd (g : grid) (o : operand N) : result (grid * py_value) :=
    do c <- inplace (vadd N) (center N g) (ndim N g) o; do g' <- assign_center g c; Ok (g', PNone).
  Definition isub (g : grid) (o : operand N) : result (grid * py_value) :=
    do c <- inplace (vsub N) (center N g) (ndim N g) o; do g' <- assign_center g c; Ok (g', PNone).
  Definition imul (g : grid) (o : operand N) : result (grid * py_value) :=
    do s <- inplace (vmul N) (step N g) (ndim N g) o;
    do g1 <- assign_step g s;
    do c <- inplace (vmul N) (center N g1) (ndim N g) o;
    do g' <- assign_center g1 c;
    Ok (g', PNone).
  (** [__idiv__] (lines 764-766) is not called by Python 3: [g /= a] becomes [g = g.__truediv__(a)]. *)
  Definition itruediv (g : grid) (o : operand N) : result (grid * py_value) :=
    do h <- div N g o; Ok (g, PGrid h).
End MutableGrid.
