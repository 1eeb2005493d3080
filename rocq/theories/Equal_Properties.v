(** C156: comparison of grids. *)
From Coq Require Import Reals List Arith ZArith Bool Lia.
Require Import Verif.Base Verif.Num Verif.Grid_Model Verif.Grid_Spec Verif.Grid_Tests Verif.Float_Model Verif.Equal_Model Verif.Equal_Proofs Verif.Equal_Float.
Import ListNotations.
Local Open Scope nat_scope.

(** Grids with the same number of axes are equal if and only if these have the same shape, step, center and flags, and the numbers are of the same type.  They
    then have the same coordinates, and the same hash.  Both must be made from vectors, or both from numbers only. *)
Theorem equal_grids_partial : forall (mutable : bool) (a b : args RN) (g h : grid RN),
  construct RN a = Ok g -> construct RN b = Ok h -> 1 <= ndim RN g -> ndim RN g = ndim RN h -> multidimensional RN g = multidimensional RN h ->
  short_step RN g = false -> short_step RN h = false ->
  (equal RN (Build_object RN mutable g) (Build_object RN mutable h) = Ok true <-> same_grid g h /\ grid_dtype RN g = grid_dtype RN h) /\
  (equal RN (Build_object RN mutable g) (Build_object RN mutable h) = Ok true ->
    (forall i, i < ndim RN g -> axis_range RN g i = axis_range RN h i) /\
    forall text_hash, hash RN text_hash (Build_object RN mutable g) = hash RN text_hash (Build_object RN mutable h)).
Proof. exact equal_same. Qed.
Print Assumptions equal_grids_partial.

(** The text that the hash is made of shows all that is compared: grids with the same text are of the same class and equal. *)
Theorem equal_texts : forall (mutable mutable' : bool) (g h : grid RN), ndim RN g = ndim RN h -> short_step RN g = false -> short_step RN h = false ->
  (multidimensional RN g = false -> ndim RN g = 1) -> (multidimensional RN h = false -> ndim RN h = 1) ->
  repr RN (Build_object RN mutable g) = repr RN (Build_object RN mutable' h) -> mutable = mutable' /\ equal RN (Build_object RN mutable g) (Build_object RN mutable' h) = Ok true.
Proof. exact text_equal. Qed.
Print Assumptions equal_texts.

(** Each grid is equal to itself, and the order of a comparison does not matter. *)
Theorem equal_reflexive_symmetric : forall a b : object RN, equal RN a a = Ok true /\ equal RN a b = equal RN b a.
Proof. exact (fun a b => conj (equal_refl a) (equal_sym a b)). Qed.
Print Assumptions equal_reflexive_symmetric.

(** Grids with the same number of axes that equal the same grid are equal. *)
Theorem equal_transitive_partial : forall (mutable : bool) (f g h : grid RN), ndim RN f = ndim RN g -> ndim RN g = ndim RN h -> short_step RN f = false -> short_step RN g = false -> short_step RN h = false ->
  equal RN (Build_object RN mutable f) (Build_object RN mutable g) = Ok true -> equal RN (Build_object RN mutable g) (Build_object RN mutable h) = Ok true ->
  equal RN (Build_object RN mutable f) (Build_object RN mutable h) = Ok true.
Proof. exact equal_trans. Qed.
Print Assumptions equal_transitive_partial.

(** A grid with a single axis equals all grids that have this axis repeatedly; two of the latter cannot be compared if they differ in the number of axes.
    Grid(3), Grid([3]) and Grid([3, 3]) are all equal, although they have coordinates of other dimensions, and other texts to make the hash of. *)
Theorem equal_dimensions_refuted :
  (forall (mutable : bool) (g h : grid RN), ndim RN g = 1 -> short_step RN g = false -> 1 <= ndim RN h -> short_step RN h = false -> (forall i, i < ndim RN h -> same_axis g 0 h i) -> grid_dtype RN g = grid_dtype RN h ->
    equal RN (Build_object RN mutable g) (Build_object RN mutable h) = Ok true) /\
  (forall (mutable : bool) (g h : grid RN), 2 <= ndim RN g -> 2 <= ndim RN h -> ndim RN g <> ndim RN h -> equal RN (Build_object RN mutable g) (Build_object RN mutable h) = Err ValueError) /\
  (compare three three1 = Ok true /\ compare three1 three2 = Ok true /\ compare three three2 = Ok true) /\
  exists x y z, as_grid three = Ok x /\ as_grid three1 = Ok y /\ as_grid three2 = Ok z /\
    multidimensional QN (state QN x) = false /\ multidimensional QN (state QN y) = true /\ ndim QN (state QN y) = 1 /\ ndim QN (state QN z) = 2 /\ repr QN x <> repr QN y /\ repr QN y <> repr QN z /\ repr QN x <> repr QN z.
Proof. exact (conj equal_repeated (conj compare_refused (conj threes_equal threes_differ))). Qed.
Print Assumptions equal_dimensions_refuted.

(** In double precision, centres 0.0 and -0.0 are equal, but the texts to make the hash of differ. *)
Theorem equal_hash_refuted :
  equal BN (Build_object BN false (around minus_zero)) (Build_object BN false (around (nofZ BN 0))) = Ok true /\
  repr BN (Build_object BN false (around minus_zero)) <> repr BN (Build_object BN false (around (nofZ BN 0))).
Proof. exact (conj zeros_compare zeros_text). Qed.
Print Assumptions equal_hash_refuted.

(** Grids that meet the hypotheses, and a pair that differs in the step only. *)
Example comparable : exists x y, as_grid three2 = Ok x /\ as_grid (G (Some (zs [3%Z; 3%Z])) (Some (z 1)) None None None None false true) = Ok y /\
  ndim QN (state QN x) = 2 /\ ndim QN (state QN y) = 2 /\ multidimensional QN (state QN x) = multidimensional QN (state QN y) /\ short_step QN (state QN x) = false /\ short_step QN (state QN y) = false.
Proof. vm_compute. do 2 eexists. repeat split. Qed.
Example different : compare three2 (G (Some (zs [3%Z; 3%Z])) (Some (zs [1%Z; 2%Z])) None None None None false true) = Ok false.
Proof. vm_compute. reflexivity. Qed.
