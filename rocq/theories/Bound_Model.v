(** Model of python/macromax/bound.py.
    Coordinates come from the grid model.  Arrays on the grid are functions of the index of the sample along each axis
    (the code returns arrays with singleton axes that broadcast to the same values).
    Simplifications: exact numbers; the axes of the grid are not [flat] (flat axes do not broadcast against each other);
    dividing by a zero thickness, which gives inf or nan in numpy, is an error value. *)
From Coq Require Import Reals.
From Verif Require Import Base Num Grid_Model Cplx.

(** A scalar, a vector or a 2d-array as argument (lines 60, 64, 141, 145). *)
Inductive sides_arg (A : Type) : Type :=
| SScalar : A -> sides_arg A
| SVector : list A -> sides_arg A
| SMatrix : list (list A) -> sides_arg A.
Arguments SScalar {A}. Arguments SVector {A}. Arguments SMatrix {A}.

(** numpy broadcasting of one axis to length [n]. *)
Definition broadcast1 {A} (n : nat) (l : list A) (d : A) : result (nat -> A) :=
  match l with
  | [x] => Ok (fun _ => x)
  | _ => if Nat.eqb (length l) n then Ok (fun i => nth i l d) else Err ValueError
  end.
(** [np.broadcast_to(x, (ndim, 2))], lines 71 and 152: by axis and side (0 front, 1 back). *)
Definition broadcast_sides {A} (n : nat) (a : sides_arg A) (d : A) : result (nat -> nat -> A) :=
  match a with
  | SScalar x => Ok (fun _ _ => x)
  | SVector l => do f <- broadcast1 2 l d; Ok (fun _ => f)
  | SMatrix rows =>
      if forallb (fun r => Nat.eqb (length r) (length (nth 0 rows []))) rows then
        do f <- broadcast1 n rows [];
        do _ <- broadcast1 2 (nth 0 rows []) d;
        Ok (fun a s => match f a with [x] => x | r => nth s r d end)
      else Err ValueError
  end.

Section Bound.
  Variable N : num.
  Local Notation "x + y" := (nadd N x y). Local Notation "x - y" := (nsub N x y).
  Local Notation "x * y" := (nmul N x y). Local Notation "x / y" := (ndiv N x y).
  Local Notation "0" := (nofZ N 0).
  Local Notation grid := (grid N).

  (** Attributes of a [Bound] (lines 70-72) and of an [AbsorbingBound] (line 152). *)
  Record bound : Type := {
    b_grid : grid; thickness : nat -> nat -> N; kappa_function : nat -> nat -> N -> N
  }.

  (** [AbsorbingBound(grid, thickness, extinction_coefficient_function)], lines 138-152 and 59-72. *)
  Definition absorbing_bound (g : grid) (t : sides_arg N) (f : sides_arg (N -> N)) : result bound :=
    do t <- broadcast_sides (ndim N g) t 0;
    do f <- broadcast_sides (ndim N g) f (fun x => x);
    Ok {| b_grid := g; thickness := t; kappa_function := f |}.
  Definition sides_map {A B} (f : A -> B) (a : sides_arg A) : sides_arg B :=
    match a with
    | SScalar x => SScalar (f x)
    | SVector l => SVector (map f l)
    | SMatrix l => SMatrix (map (map f) l)
    end.
  (** [LinearBound(grid, thickness, max_extinction_coefficient)], lines 197-215. *)
  Definition linear_bound (g : grid) (t kmax : sides_arg N) : result bound :=
    absorbing_bound g t (sides_map (fun k rel_depth => k * rel_depth) kmax).
  (** [PeriodicBound(grid)], lines 128-134. *)
  Definition periodic_bound (g : grid) : result bound :=
    absorbing_bound g (SScalar 0) (SScalar (fun x => x)).

  (** The coordinates [rng] seen for the loop variable [axis]: [self.grid[axis]] (lines 115, 170) is the range of that
      axis for a multi-dimensional grid, and one coordinate for a grid made from scalars. *)
  Definition ranges (g : grid) : result (list (list N)) :=
    fold_right (fun i rest => do x <- getitem_axis N g (Z.of_nat i); do l <- rest; Ok (x :: l)) (Ok [])
      (seq 0%nat (if multidimensional N g then ndim N g else Z.to_nat (shape N g 0%nat))).

  (** Lines 108-117. *)
  Definition between_axis (b : bound) (axis : nat) (rng : list N) (j : nat) : bool :=
    nleb N (nth 0%nat rng 0 + thickness b axis 0%nat) (nth j rng 0) &&
    nleb N (nth j rng 0) (nth (length rng - 1)%nat rng 0 - thickness b axis 1%nat).
  Definition between (b : bound) : result ((nat -> nat) -> bool) :=
    do rs <- fold_right (fun i rest => do x <- getitem_axis N (b_grid b) (Z.of_nat i); do l <- rest; Ok (x :: l)) (Ok [])
               (seq 0%nat (ndim N (b_grid b)));
    Ok (fun p => forallb (fun a => between_axis b a (nth a rs []) (p a)) (seq 0%nat (ndim N (b_grid b)))).
  (** Lines 120-124. *)
  Definition beyond (b : bound) : result ((nat -> nat) -> bool) :=
    do f <- between b; Ok (fun p => negb (f p)).

  (** Lines 171-182 for one axis and one side: the depth in the boundary, and its contribution to kappa if any sample
      lies in the boundary. *)
  Definition depth (b : bound) (axis side : nat) (rng : list N) (j : nat) : N :=
    let sgn := nsign (at_ N (step N (b_grid b)) axis) in
    let t := thickness b axis side * sgn in
    (match side with
     | O => nth 0%nat rng 0 + t - nth j rng 0
     | _ => nth j rng 0 - (nth (length rng - 1)%nat rng 0 - t)
     end) * sgn.
  Definition contribution (b : bound) (axis side : nat) (rng : list N) : result (option (nat -> N)) :=
    let sgn := nsign (at_ N (step N (b_grid b)) axis) in
    let t := thickness b axis side * sgn in
    let in_boundary j := nltb 0 (depth b axis side rng j) in
    if existsb in_boundary (seq 0%nat (length rng)) then
      if neqb N t 0 then Err OtherException
      else Ok (Some (fun j => kappa_function b axis side (bnum N (in_boundary j) * depth b axis side rng j / t)
                              * bnum N (in_boundary j)))
    else Ok None.
  (** Lines 159-183. *)
  Definition extinction (b : bound) : result ((nat -> nat) -> N) :=
    do rs <- ranges (b_grid b);
    fold_left (fun acc axis =>
      do kappa <- acc;
      if Nat.leb (ndim N (b_grid b)) axis then Err IndexError (* self.thickness[axis, back_side] *)
      else
        do front <- contribution b axis 0%nat (nth axis rs []);
        let kappa1 := match front with None => kappa | Some f => fun p => nmax (kappa p) (f (p axis)) end in
        do back <- contribution b axis 1%nat (nth axis rs []);
        Ok (match back with None => kappa1 | Some f => fun p => nmax (kappa1 p) (f (p axis)) end))
      (seq 0%nat (length rs)) (Ok (fun _ => 0)).
End Bound.

(** Lines 185-193 and 36, with the background permittivity a complex number and the real instance of the extinction. *)
Definition absorbing_permittivity (background : C) (kappa : R) : C :=
  let n := csqrt background in ((n + Ci * kappa) * (n + Ci * kappa))%C.
Definition absorbing_susceptibility (background : C) (kappa : R) : C :=
  (absorbing_permittivity background kappa - background)%C.
(** [Electric.permittivity] (lines 30-36) of an absorbing bound. *)
Definition electric_permittivity (background : C) (kappa : R) : C :=
  (background + absorbing_susceptibility background kappa)%C.
(** The susceptibilities of the base class: lines 92-105. *)
Definition plain_susceptibility : C := RtoC 0.
