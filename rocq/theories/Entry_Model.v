(** What Solution and Bound make of their argument [grid], and the arrays of coordinates and of wave vectors that the
    calculation takes from it: macromax/solver.py, macromax/bound.py, and macromax/backend/__init__.py. *)
From Coq Require Import Reals List ZArith Bool.
From Verif Require Import Base Num Grid_Model.
Import ListNotations.
Local Open Scope R_scope.

(** The argument [grid]: a Grid object, a sequence of ranges, or a sequence of numbers. Ranges are vectors here; arrays with
    singleton dimensions, as in [numpy.ogrid], are not modelled. *)
Inductive grid_arg : Type :=
| AGrid : grid RN -> grid_arg
| ARanges : dt -> list (list R) -> grid_arg
| ANumbers : dt -> list R -> grid_arg.

(** solver.py 142-147: [grid[0]] of an empty sequence raises IndexError; a sequence of numbers is a single range. *)
Definition solution_grid (a : grid_arg) : result (grid RN) :=
  match a with
  | AGrid g => immutable RN g
  | ARanges d [] | ANumbers d [] => Err IndexError
  | ARanges d rs => do g <- from_ranges RN d rs; immutable RN g
  | ANumbers d xs => do g <- from_ranges RN d [xs]; immutable RN g
  end.

(** bound.py 68-70: [Grid.from_ranges(grid)] without unpacking. A sequence of ranges of equal length becomes a
    two-dimensional array, of which grid.py 216-217 keeps only the first row; [numpy.array] raises ValueError for ranges of
    different lengths. *)
Definition bound_grid (a : grid_arg) : result (grid RN) :=
  match a with
  | AGrid g => Ok g
  | ANumbers d xs => from_ranges RN d [xs]
  | ARanges d [] => Err AttributeError
  | ARanges d (r :: rs) =>
      if forallb (fun x => Nat.eqb (length x) (length r)) rs then from_ranges RN d [r] else Err ValueError
  end.

(** An element of the iteration over a Grid, grid.py 532-567: a vector along an axis, a flat vector, which numpy broadcasts
    along the last axis, or a number. *)
Inductive coords : Type :=
| Along : nat -> list R -> coords
| LastAxis : list R -> coords
| Number : R -> coords.
Definition coords_of (g : grid RN) (i : nat) (l : list R) : coords :=
  if multidimensional RN g then (if flat RN g i then LastAxis l else Along i l)
  else match l with x :: _ => Number x | [] => Number 0 end.
(** [list(g)], as in [f( *self.__grid)], solver.py 169: grid.py 522-530 and 565-567. *)
Definition items (g : grid RN) : result (list coords) :=
  fold_right (fun i rest => do l <- getitem_axis RN g (Z.of_nat i); do cs <- rest; Ok (coords_of g i l :: cs)) (Ok [])
    (seq 0 (if multidimensional RN g then ndim RN g else Z.to_nat (shape RN g 0))).

(** Broadcasting against arrays of a given shape: the value at an index, and whether the lengths fit. *)
Definition at_index (c : coords) (p : list nat) : R :=
  match c with
  | Along a l => nth (if Nat.eqb (length l) 1 then 0 else nth a p 0)%nat l 0
  | LastAxis l => nth (if Nat.eqb (length l) 1 then 0 else last p 0)%nat l 0
  | Number x => x
  end.
Definition broadcasts (s : list nat) (c : coords) : bool :=
  match c with
  | Along a l => Nat.eqb (length l) 1 || Nat.eqb (length l) (nth a s 1%nat)
  | LastAxis l => Nat.eqb (length l) 1 || Nat.eqb (length l) (last s 1%nat)
  | Number _ => true
  end.

(** [BackEnd.k], backend/__init__.py 651-656, for the grid [self.grid * self.wavenumber] of solver.py 212. *)
Definition backend_k (k0 : R) (g : grid RN) : result (list coords) :=
  do h <- mul RN g (OScalar RN DFlt k0);
  do k <- k_grid RN PI h;
  items k.
(** [BackEnd.k2], backend/__init__.py lines 658-668, as used with arrays of the shape [s]. The ValueError for lengths that do not fit is raised
    by the sum or by its first use. *)
Definition backend_k2 (s : list nat) (ks : list coords) : result (list nat -> R) :=
  if forallb (broadcasts s) ks then Ok (fun p => fold_right (fun c acc => at_index c p * at_index c p + acc) 0 ks)
  else Err ValueError.
