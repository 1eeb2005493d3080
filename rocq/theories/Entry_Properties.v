(** The properties of the argument [grid] (C147, C148). *)
From Coq Require Import Reals Lra Lia List ZArith.
From Verif Require Import Base Num Grid_Model Grid_Spec Grid_Proofs Grid_Rebuild Grid_Ops.
From Verif Require Import CSum Vec_Model Entry_Model Entry_Spec Entry_Proofs.
Import ListNotations.
Local Open Scope R_scope.

(** C147. For a Grid with axes that are not flat, the functions for the source and the material are called with the coordinates
    of the grid, one array per axis, and the wave vectors in the calculation are those of the discrete Fourier transform on the
    grid, in units of the vacuum wavenumber. *)
Theorem entry_grid_partial : forall (g : grid RN) (k0 : R), spatial g -> k0 <> 0 ->
  let s := rshape (sampling k0 g) in
  exists h xs ks k2f crd, solution_grid (AGrid g) = Ok h /\ same_grid h g /\
    (forall i, (i < ndim RN g)%nat -> coordinates g i = Ok (crd i)) /\
    items h = Ok xs /\ arrays s xs (ndim RN g) (fun i p => nth (nth i p 0%nat) (crd i) 0) /\
    backend_k k0 h = Ok ks /\ arrays s ks (ndim RN g) (kvec (sampling k0 g)) /\
    backend_k2 s ks = Ok k2f /\ forall p, inside s p -> k2f p = k2 (sampling k0 g) p.
Proof.
  intros g k0 Hg Hk. destruct (spatial_entry g k0 Hg Hk) as (h & xs & ks & k2f & H1 & H2 & H3).
  exists h, xs, ks, k2f, (axis_range RN g). split; [exact H1|]. split; [exact H2|]. split; [|exact H3].
  intros i Hi. apply coordinates_range; [apply Hg|exact Hi].
Qed.
Print Assumptions entry_grid_partial.
(** C147 is violated by a Grid that is constructed from numbers: functions are called with one argument per point, and the
    squared wave vector is the same number everywhere in Fourier space; it is not zero at the origin. *)
Theorem entry_numbers_refuted : forall (g : grid RN) (k0 : R),
  regular g -> multidimensional RN g = false -> (2 <= points g 0)%nat -> step_of g 0 <> 0 -> k0 <> 0 ->
  exists h xs ks k2f, solution_grid (AGrid g) = Ok h /\ items h = Ok xs /\ length xs = points g 0 /\
    backend_k k0 h = Ok ks /\ backend_k2 [points g 0] ks = Ok k2f /\ (forall p q, k2f p = k2f q) /\
    k2f [0%nat] <> k2 (sampling k0 g) [0%nat].
Proof. exact scalar_entry. Qed.
Print Assumptions entry_numbers_refuted.
(** C147 is violated by a square Grid with flat axes: the squared wave vector does not depend on the first index. *)
Theorem entry_flat_refuted : forall (g : grid RN) (k0 : R),
  regular g -> multidimensional RN g = true -> ndim RN g = 2%nat ->
  (forall i, (i < 2)%nat -> flat RN g i = true /\ step_of g i <> 0) -> points g 0 = points g 1 -> (2 <= points g 0)%nat -> k0 <> 0 ->
  exists h ks k2f, solution_grid (AGrid g) = Ok h /\ backend_k k0 h = Ok ks /\ backend_k2 (rshape (sampling k0 g)) ks = Ok k2f /\
    (forall i j j', k2f [i; j] = k2f [j'; j]) /\ k2f [1%nat; 0%nat] <> k2 (sampling k0 g) [1%nat; 0%nat].
Proof. exact flat_entry. Qed.
Print Assumptions entry_flat_refuted.

(** C148. Ranges of uniformly spaced numbers can be given to a Solution instead of a Grid. *)
Theorem entry_ranges : forall (d : dt) (rs : list (list R)),
  rs <> [] -> (forall r, In r rs -> is_range r /\ exists x y, In x r /\ In y r /\ x <> y) ->
  exists g, solution_grid (ARanges d rs) = Ok g /\ spatial g /\ ndim RN g = length rs /\
    (forall i, (i < length rs)%nat -> coordinates g i = Ok (nth i rs [])).
Proof. exact ranges_entry. Qed.
Print Assumptions entry_ranges.
(** A single range does not need to be put in a sequence, neither for a Solution nor for its boundary. *)
Theorem entry_single_range : forall (d : dt) (l : list R),
  is_range l -> (exists x y, In x l /\ In y l /\ x <> y) ->
  solution_grid (ANumbers d l) = solution_grid (ARanges d [l]) /\ bound_grid (ANumbers d l) = from_ranges RN d [l].
Proof. exact numbers_entry. Qed.
Print Assumptions entry_single_range.
(** C148 is violated by boundaries: of several ranges of the same length, only the first is used, ... *)
Theorem bound_first_range_refuted : forall (d : dt) (r : list R) (rs : list (list R)),
  is_range r -> List.Forall (fun x => length x = length r) rs ->
  exists g, bound_grid (ARanges d (r :: rs)) = Ok g /\ ndim RN g = 1%nat /\ coordinates g 0 = Ok r.
Proof. exact bound_first. Qed.
Print Assumptions bound_first_range_refuted.
(** ... and ranges of different lengths are refused. *)
Theorem bound_ranges_refused_refuted : forall (d : dt) (r : list R) (rs : list (list R)) (x : list R),
  In x rs -> length x <> length r -> bound_grid (ARanges d (r :: rs)) = Err ValueError.
Proof. exact bound_ragged. Qed.
Print Assumptions bound_ranges_refused_refuted.

(** Ranges that meet the conditions, and thereby a spatial grid. *)
Example two_ranges : let rs := [uniform 0 2 3; uniform 5 (-1) 2] in
  rs <> [] /\ (forall r, In r rs -> is_range r /\ exists x y, In x r /\ In y r /\ x <> y) /\
  exists g, spatial g /\ ndim RN g = 2%nat.
Proof.
  intros rs. assert (forall r, In r rs -> is_range r /\ exists x y, In x r /\ In y r /\ x <> y) as H.
  { intros r [<-|[<-|[]]].
    - split; [exists 0, 2, 3%nat; split; [lia|]; left; reflexivity|].
      exists (0 + INR 0 * 2), (0 + INR 1 * 2). split; [left; reflexivity|]. split; [right; left; reflexivity|]. cbn. lra.
    - split; [exists 5, (-1), 2%nat; split; [lia|]; left; reflexivity|].
      exists (5 + INR 0 * -1), (5 + INR 1 * -1). split; [left; reflexivity|]. split; [right; left; reflexivity|]. cbn. lra. }
  split; [discriminate|]. split; [exact H|].
  destruct (ranges_entry DFlt rs) as (g & _ & G & N & _); [discriminate|exact H|]. exists g. split; [exact G|exact N].
Qed.
(** Grids as the constructor makes them that meet the conditions of the refutations. *)
Definition line_of (multi fl : bool) (n : nat) : grid RN :=
  Build_grid RN n (fun _ => 4%Z) (Build_vec RN DFlt (fun _ => 2)) (Build_vec RN DFlt (fun _ => 0))
    (fun _ => fl) (fun _ => true) (fun _ => true) multi false.
Example line_of_numbers : exists a g, construct RN a = Ok g /\ regular g /\ multidimensional RN g = false /\ (2 <= points g 0)%nat /\ step_of g 0 <> 0.
Proof.
  assert (regular (line_of false false 1)) as R by (split; [reflexivity|]; split; [reflexivity|]; intros; cbn; lia).
  destruct (proj1 (views_ok _ R)) as (h & E & Rh & (N & M & A)). exists (dict RN (line_of false false 1)), h.
  split; [exact E|]. split; [exact Rh|]. split; [exact M|]. cbn [line_of ndim] in N. destruct (A 0%nat) as (A1 & A2 & _); [lia|].
  unfold points. rewrite A1, A2. cbn. split; [lia|lra].
Qed.
Example flat_square : exists a g, construct RN a = Ok g /\ regular g /\ multidimensional RN g = true /\ ndim RN g = 2%nat /\
  (forall i, (i < 2)%nat -> flat RN g i = true /\ step_of g i <> 0) /\ points g 0 = points g 1 /\ (2 <= points g 0)%nat.
Proof.
  assert (regular (line_of true true 2)) as R by (split; [reflexivity|]; split; [discriminate|]; intros; cbn; lia).
  destruct (proj1 (views_ok _ R)) as (h & E & Rh & (N & M & A)). exists (dict RN (line_of true true 2)), h.
  split; [exact E|]. split; [exact Rh|]. split; [exact M|]. cbn [line_of ndim] in N. split; [exact N|]. split.
  - intros i Hi. destruct (A i) as (_ & A2 & _ & A4 & _); [lia|]. rewrite A4, A2. cbn. split; [reflexivity|lra].
  - destruct (A 0%nat) as (A1 & _); [lia|]. destruct (A 1%nat) as (B1 & _); [lia|]. unfold points. rewrite A1, B1. cbn. split; [reflexivity|lia].
Qed.
