(** Model of the comparison of grids: python/macromax/utils/ft/grid.py lines 417-420 (dtype), 573-581 (__dict__), 598-603 (__repr__) and 608-616 (__eq__ and __hash__).
    Simplified: the text of __repr__ is represented by what it shows: the class, and for each attribute the number or the array, of integers or of floating
    point numbers; the hash of the text is a function of these. *)
From Coq Require Import List Arith ZArith Bool.
Require Import Verif.Base Verif.Num Verif.Grid_Model.
Import ListNotations.

(** np.all(x == y) for vectors of m and n elements, which numpy expands if they have one element; otherwise their lengths must be the same. *)
Definition all_equal {A} (eqb : A -> A -> bool) (m : nat) (x : nat -> A) (n : nat) (y : nat -> A) : result bool :=
  if (m =? n)%nat then Ok (forallb (fun i => eqb (x i) (y i)) (seq 0 n))
  else if (m =? 1)%nat then Ok (forallb (fun i => eqb (x 0%nat) (y i)) (seq 0 n))
  else if (n =? 1)%nat then Ok (forallb (fun i => eqb (x i) (y 0%nat)) (seq 0 m))
  else Err ValueError.
(** The operator and: what follows is not evaluated after False. *)
Definition also (a : result bool) (b : result bool) : result bool := do x <- a; if x then b else Ok false.

Section Equal.
  Variable N : num.
  Local Notation grid := (grid N).
  (** The number of elements of step. *)
  Definition step_size (g : grid) : nat := if short_step N g then 1%nat else ndim N g.
  (** dtype, lines 417-420. *)
  Definition grid_dtype (g : grid) : dt := if (ndim N g =? 0)%nat then DFlt else join (tag N (step N g)) (tag N (center N g)).
  Definition same_dt (a b : dt) : bool := Bool.eqb (is_int a) (is_int b).
  (** A Grid or a MutableGrid. *)
  Record object : Type := { is_mutable : bool; state : grid }.
  (** __eq__, lines 608-613. *)
  Definition equal (a b : object) : result bool :=
    let g := state a in let h := state b in
    also (Ok (Bool.eqb (is_mutable a) (is_mutable b)))
    (also (all_equal Z.eqb (ndim N g) (shape N g) (ndim N h) (shape N h))
    (also (all_equal (neqb N) (step_size g) (at_ N (step N g)) (step_size h) (at_ N (step N h)))
    (also (all_equal (neqb N) (ndim N g) (at_ N (center N g)) (ndim N h) (at_ N (center N h)))
    (also (all_equal Bool.eqb (ndim N g) (flat N g) (ndim N h) (flat N h))
    (also (all_equal Bool.eqb (ndim N g) (center_at_index N g) (ndim N h) (center_at_index N h))
    (also (all_equal Bool.eqb (ndim N g) (origin_at_center N g) (ndim N h) (origin_at_center N h))
      (Ok (same_dt (grid_dtype g) (grid_dtype h))))))))).

  (** An attribute in __dict__, lines 573-581: a vector, or its first element. *)
  Inductive shown (A : Type) : Type := One (x : A) | Many (l : list A).
  Arguments One {A}. Arguments Many {A}.
  Definition show {A} (g : grid) (n : nat) (x : nat -> A) : shown A := if multidimensional N g then Many (map x (seq 0 n)) else One (x 0%nat).
  (** __repr__, lines 598-603. *)
  Record text : Type := {
    t_class : bool; t_shape : shown Z; t_step : dt * shown N; t_center : dt * shown N; t_flat : shown bool; t_cai : shown bool; t_oac : shown bool; t_dtype : dt
  }.
  Definition repr (a : object) : text :=
    let g := state a in
    {| t_class := is_mutable a; t_shape := show g (ndim N g) (shape N g);
       t_step := (tag N (step N g), show g (step_size g) (at_ N (step N g))); t_center := (tag N (center N g), show g (ndim N g) (at_ N (center N g)));
       t_flat := show g (ndim N g) (flat N g); t_cai := show g (ndim N g) (center_at_index N g); t_oac := show g (ndim N g) (origin_at_center N g); t_dtype := grid_dtype g |}.
  (** __hash__, lines 615-616. *)
  Definition hash (text_hash : text -> Z) (a : object) : Z := text_hash (repr a).
End Equal.
Arguments One {A}. Arguments Many {A}.
