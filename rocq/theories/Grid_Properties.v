(** C01-C06 and C53-C58: grids. *)
From Coq Require Import QArith Qcanon Reals Lra Permutation.
From Verif Require Import Base Num Grid_Model Grid_Spec Grid_Proofs Grid_Rebuild Grid_Ops Grid_Tests Grid_Refutations.
Local Open Scope R_scope.

(** C01.  Whenever the constructor returns, every argument that was passed is what the grid reports on every axis. *)
Theorem grid_honours_arguments : forall (a : args RN) (g : grid RN) (i : nat),
  construct RN a = Ok g -> (i < ndim RN g)%nat ->
  (1 <= shape RN g i)%Z /\
  (forall s, requested (a_shape RN a) i (IZR s) -> (1 <= s)%Z -> shape RN g i = s) /\
  (forall x, requested (a_step RN a) i x -> step_of g i = x) /\
  (forall x, requested (a_center RN a) i x -> center_of g i = x) /\
  (forall x, requested (a_first RN a) i x -> first RN g i = x) /\
  (forall f l (b : bool),
     requested (a_first RN a) i f -> requested (a_last RN a) i l -> requested_flag (a_include_last RN a) i b ->
     IZR (shape RN g i) * step_of g i = l + (if b then step_of g i else 0) - f) /\
  (forall b, requested_flag (a_flat RN a) i b -> flat RN g i = b) /\
  (forall b, requested_flag (a_origin_at_center RN a) i b -> origin_at_center RN g i = b) /\
  (forall b, requested_flag (a_center_at_index RN a) i b -> center_at_index RN g i = b).
Proof. exact construct_agrees. Qed.
Print Assumptions grid_honours_arguments.
Example grid_honours_arguments_ex : exists g, construct RN example_args = Ok g /\ ndim RN g = 2%nat /\
  requested (a_step RN example_args) 1 (-2) /\ requested (a_shape RN example_args) 1 (IZR 4).
Proof. destruct example_grid as (g & E & _ & N & _). exists g. cbn. auto. Qed.
(** With first and last (rational instance): Grid(2, first=0, last=10, include_last=True) is [0, 10]. *)
Example grid_first_last_ex : C (G (Some (z 2)) None None (Some (z 0)) None (Some (z 10)) true true) = zq [0; 10]%Z.
Proof. exact t24. Qed.

(** C54.  extent: met exactly when the step is derived from it, and covered with less than one step to spare when
    the step is given and the shape is derived. *)
Theorem grid_extent_exact : forall (a : args RN) (g : grid RN) (i : nat) (x : R),
  construct RN a = Ok g -> (i < ndim RN g)%nat ->
  requested (a_extent RN a) i x -> a_step RN a = None -> extent RN g i = x.
Proof. exact construct_extent_shape. Qed.
Print Assumptions grid_extent_exact.
Theorem grid_extent_covered : forall (a : args RN) (g : grid RN) (i : nat) (x st : R),
  construct RN a = Ok g -> (i < ndim RN g)%nat ->
  requested (a_extent RN a) i x -> requested (a_step RN a) i st -> a_shape RN a = None ->
  step_of g i = st /\ Rabs x <= Rabs (extent RN g i) /\
  (x <> 0 -> Rabs (extent RN g i) < Rabs x + Rabs st) /\ (x = 0 -> shape RN g i = 1%Z).
Proof. exact construct_extent_step. Qed.
Print Assumptions grid_extent_covered.
Example grid_extent_ex : C (G None (Some (z 2)) (Some (z 11)) None None None false true) = zq [-6; -4; -2; 0; 2; 4]%Z.
Proof. exact t3. Qed.

(** C55 is violated: without [first], an argument [last] that contradicts the others is ignored or not met. *)
Theorem grid_last_ignored_refuted :
  exists g, construct QN ignored_last = Ok g /\
    neqb QN (nmul QN (nofZ QN (shape QN g 0)) (at_ QN (step QN g) 0%nat)) (nsub QN (nofZ QN 100) (first QN g 0)) = false.
Proof. exact last_ignored. Qed.
Print Assumptions grid_last_ignored_refuted.
Theorem grid_last_truncated_refuted :
  exists g, construct QN truncated_step = Ok g /\ this (at_ QN (step QN g) 0%nat) = inject_Z 1000000 /\
    neqb QN (nmul QN (nofZ QN (shape QN g 0)) (at_ QN (step QN g) 0%nat)) (nsub QN (nofZ QN 2000001) (first QN g 0)) = false.
Proof. exact step_truncated. Qed.
Print Assumptions grid_last_truncated_refuted.
Theorem grid_last_half_index_refuted : C half_index = Ok [-3#2; -1#2; 1#2; 3#2]%Q.
Proof. exact half_index_wrong. Qed.
Print Assumptions grid_last_half_index_refuted.

(** C56 is violated: calls that rely on the documented default step 1 always fail ... *)
Theorem grid_defaults_refuted : forall a : args RN,
  a_shape RN a = None -> a_step RN a = None -> a_extent RN a = None -> exists e, construct RN a = Err e.
Proof. exact defaults_fail. Qed.
Print Assumptions grid_defaults_refuted.
(** ... and some satisfiable calls are refused. *)
Theorem grid_satisfiable_refused_refuted :
  construct QN refused_range = Err ValueError /\
  (exists g, construct QN (G (Some (z 2)) None None (Some (q 0)) None (Some (z 2000001)) false true) = Ok g /\
    this (at_ QN (step QN g) 0%nat) = (2000001 # 2)%Q) /\
  construct QN (G None (Some (z 1)) None (Some (z 0)) None None false true) = Err ValueError /\
  construct QN (G (Some (zs [1; 4]%Z)) None None (Some (zs [0; 0]%Z)) None (Some (zs [0; 6]%Z)) true true) = Err ValueError.
Proof. exact (conj range_refused (conj range_accepted (conj step_first_refused short_refused))). Qed.
Print Assumptions grid_satisfiable_refused_refuted.

(** Constructed grids are regular unless the step vector came out with a single entry (C53). *)
Theorem grid_constructed_regular : forall (a : args RN) (g : grid RN),
  construct RN a = Ok g -> a_ndim RN a = None -> short_step RN g = false -> regular g.
Proof. exact construct_regular. Qed.
Print Assumptions grid_constructed_regular.
Example grid_constructed_regular_ex : exists g, construct RN example_args = Ok g /\ a_ndim RN example_args = None /\ short_step RN g = false.
Proof. destruct example_grid as (g & E & (R & _) & _). exists g. auto. Qed.

(** C53 is violated. *)
Theorem grid_axis_unreadable_refuted :
  exists g, construct QN short = Ok g /\ ndim QN g = 2%nat /\ getitem_axis QN g 1 = Err IndexError.
Proof. exact short_unreadable. Qed.
Print Assumptions grid_axis_unreadable_refuted.

(** C58 is violated: with the argument ndim the grid reports 3 axes, but indexing and arithmetic treat it as one. *)
Theorem grid_ndim_argument_refuted :
  exists g h, construct QN with_ndim = Ok g /\ ndim QN g = 3%nat /\ add QN g (OScalar QN DInt (nofZ QN 0)) = Ok h /\ ndim QN h = 1%nat /\
    (exists x, getitem_axis QN g 1 = Ok [x] /\ this x = (-1)%Q).
Proof. exact ndim_lost. Qed.
Print Assumptions grid_ndim_argument_refuted.

(** C02. *)
Theorem grid_coordinates_uniform : forall (g : grid RN) (a : nat),
  regular g -> (a < ndim RN g)%nat ->
  exists l mono : list R,
    coordinates g a = Ok l /\ length l = points g a /\ length mono = points g a /\
    (forall j, (j < points g a)%nat -> nth j mono 0 = first RN g a + INR j * step_of g a) /\
    nth (points g a / 2) mono 0 =
      (if (negb (center_at_index RN g a) && Nat.even (points g a))%bool
       then center_of g a + step_of g a / 2 else center_of g a) /\
    (origin_at_center RN g a = true -> l = mono) /\
    (origin_at_center RN g a = false ->
       Permutation l mono /\
       forall j, (j < points g a)%nat -> nth j l 0 = nth ((j + points g a / 2) mod points g a) mono 0).
Proof. exact grid_coordinates. Qed.
Print Assumptions grid_coordinates_uniform.
Example regular_grid_ex : exists g, construct RN example_args = Ok g /\ regular g /\ ndim RN g = 2%nat.
Proof. destruct example_grid as (g & E & R & N & _). exists g. auto. Qed.

(** C03. *)
Theorem grid_from_ranges : forall (d : dt) (ranges : list (list R)),
  (forall r, In r ranges -> is_range r) ->
  exists g, from_ranges RN d ranges = Ok g /\ regular g /\ ndim RN g = length ranges /\ multidimensional RN g = true /\
    forall i, (i < length ranges)%nat -> coordinates g i = Ok (nth i ranges []).
Proof. exact from_ranges_ok. Qed.
Print Assumptions grid_from_ranges.
Theorem grid_from_ranges_empty : forall (d : dt) (ranges : list (list R)),
  In [] ranges -> from_ranges RN d ranges = Err AttributeError.
Proof. exact from_ranges_empty. Qed.
Print Assumptions grid_from_ranges_empty.
Example is_range_ex : is_range [0; 1; 2; -2; -1].
Proof.
  exists (-2), 1, 5%nat. split; [repeat constructor|]. right. split; [reflexivity|].
  intros [|[|[|[|[|j]]]]] Hj; [..|exfalso; lia]; cbn; ring.
Qed.

(** C04. *)
Theorem grid_frequencies : forall g : grid RN,
  regular g -> (forall i, (i < ndim RN g)%nat -> step_of g i <> 0) ->
  exists f, f_grid RN g = Ok f /\ regular f /\ ndim RN f = ndim RN g /\ multidimensional RN f = multidimensional RN g /\
    forall i, (i < ndim RN g)%nat ->
      shape RN f i = shape RN g i /\ flat RN f i = flat RN g i /\ step_of f i = 1 / (IZR (shape RN g i) * step_of g i) /\
      origin_at_center RN f i = false /\ center_at_index RN f i = true /\ center_of f i = 0 /\
      exists l, coordinates f i = Ok l /\ length l = points g i /\
        forall j, (j < points g i)%nat -> nth j l 0 = IZR (signed (points g i) j) / extent RN g i.
Proof. exact f_ok. Qed.
Print Assumptions grid_frequencies.
Theorem grid_frequency_index : forall n j : nat, (j < n)%nat ->
  ((signed n j) mod Z.of_nat n = Z.of_nat j /\ - Z.of_nat n <= 2 * signed n j < Z.of_nat n)%Z.
Proof. exact signed_spec. Qed.
Print Assumptions grid_frequency_index.
Theorem grid_frequencies_twice : forall g : grid RN,
  regular g -> (forall i, (i < ndim RN g)%nat -> step_of g i <> 0) ->
  exists f ff, f_grid RN g = Ok f /\ f_grid RN f = Ok ff /\ ndim RN ff = ndim RN g /\
    forall i, (i < ndim RN g)%nat -> shape RN ff i = shape RN g i /\ step_of ff i = step_of g i.
Proof. exact f_f_ok. Qed.
Print Assumptions grid_frequencies_twice.
Theorem grid_wavenumbers : forall g : grid RN,
  regular g -> (forall i, (i < ndim RN g)%nat -> step_of g i <> 0) ->
  exists f k, f_grid RN g = Ok f /\ k_grid RN PI g = Ok k /\ regular k /\ same_layout k f /\
    coordinatewise f k (fun _ x => 2 * PI * x).
Proof. exact k_ok. Qed.
Print Assumptions grid_wavenumbers.
Theorem grid_wavenumber_periodic : forall (g : grid RN) (i j : nat) (x : R),
  regular g -> (forall i, (i < ndim RN g)%nat -> step_of g i <> 0) -> (i < ndim RN g)%nat -> (j < points g i)%nat ->
  exists k l, k_grid RN PI g = Ok k /\ coordinates k i = Ok l /\ length l = points g i /\
    cos (nth j l 0 * (x + extent RN g i)) = cos (nth j l 0 * x) /\
    sin (nth j l 0 * (x + extent RN g i)) = sin (nth j l 0 * x).
Proof. exact k_periodic. Qed.
Print Assumptions grid_wavenumber_periodic.
Example nonzero_step_ex : exists g, regular g /\ ndim RN g = 2%nat /\ forall i, (i < ndim RN g)%nat -> step_of g i <> 0.
Proof.
  destruct example_grid as (g & _ & R & N & _ & _ & _ & S0 & S1 & _). exists g. split; [exact R|]. split; [exact N|].
  rewrite N. intros [|[|i]] Hi; [rewrite S0|rewrite S1|exfalso; lia]; lra.
Qed.

(** C05. *)
Theorem grid_add : forall (g : grid RN) (o : operand RN),
  regular g -> operand_fits g o ->
  exists h, add RN g o = Ok h /\ regular h /\ same_layout h g /\
    (forall t : nat -> R, (forall i, (i < ndim RN g)%nat -> operand_value o i (t i)) ->
      coordinatewise g h (fun i x => x + t i) /\
      forall i, (i < ndim RN g)%nat -> step_of h i = step_of g i /\ center_of h i = center_of g i + t i).
Proof. exact add_ok. Qed.
Print Assumptions grid_add.
Theorem grid_mul : forall (g : grid RN) (o : operand RN),
  regular g -> operand_fits g o ->
  exists h, mul RN g o = Ok h /\ regular h /\ same_layout h g /\
    (forall t : nat -> R, (forall i, (i < ndim RN g)%nat -> operand_value o i (t i)) ->
      coordinatewise g h (fun i x => t i * x) /\
      forall i, (i < ndim RN g)%nat -> step_of h i = t i * step_of g i /\ center_of h i = t i * center_of g i).
Proof. exact mul_ok. Qed.
Print Assumptions grid_mul.
Theorem grid_sub : forall (g : grid RN) (o : operand RN),
  regular g -> operand_fits g o -> is_sequence o = false ->
  exists h, sub RN g o = Ok h /\ regular h /\ same_layout h g /\
    (forall t : nat -> R, (forall i, (i < ndim RN g)%nat -> operand_value o i (t i)) ->
      coordinatewise g h (fun i x => x - t i) /\
      forall i, (i < ndim RN g)%nat -> step_of h i = step_of g i /\ center_of h i = center_of g i - t i).
Proof. exact sub_ok. Qed.
Print Assumptions grid_sub.
Theorem grid_div : forall (g : grid RN) (o : operand RN),
  regular g -> operand_fits g o -> is_sequence o = false -> (forall i x, operand_value o i x -> x <> 0) ->
  exists h, div RN g o = Ok h /\ regular h /\ same_layout h g /\
    (forall t : nat -> R, (forall i, (i < ndim RN g)%nat -> operand_value o i (t i)) ->
      coordinatewise g h (fun i x => x / t i) /\
      forall i, (i < ndim RN g)%nat -> step_of h i = step_of g i / t i /\ center_of h i = center_of g i / t i).
Proof. exact div_ok. Qed.
Print Assumptions grid_div.
Theorem grid_neg : forall g : grid RN,
  regular g ->
  exists h, neg RN g = Ok h /\ regular h /\ same_layout h g /\ coordinatewise g h (fun _ x => - x) /\
      forall i, (i < ndim RN g)%nat -> step_of h i = - step_of g i /\ center_of h i = - center_of g i.
Proof. exact neg_ok. Qed.
Print Assumptions grid_neg.
Theorem grid_add_sub : forall (g : grid RN) (o : operand RN),
  regular g -> operand_fits g o -> is_sequence o = false ->
  exists h k, add RN g o = Ok h /\ sub RN h o = Ok k /\ same_grid k g.
Proof. exact add_sub_roundtrip. Qed.
Print Assumptions grid_add_sub.
Theorem grid_mul_div : forall (g : grid RN) (o : operand RN),
  regular g -> operand_fits g o -> is_sequence o = false -> (forall i x, operand_value o i x -> x <> 0) ->
  exists h k, mul RN g o = Ok h /\ div RN h o = Ok k /\ same_grid k g.
Proof. exact mul_div_roundtrip. Qed.
Print Assumptions grid_mul_div.
Example operand_ex : exists g, regular g /\ operand_fits g (OArray RN DFlt [3; / 2]) /\
  (forall i x, operand_value (OArray RN DFlt [3; / 2]) i x -> x <> 0).
Proof.
  destruct example_grid as (g & _ & R & N & _). exists g. split; [exact R|]. split; [right; symmetry; exact N|].
  intros [|[|i]] x H; cbn in H; [injection H as <-; lra|injection H as <-; lra|destruct i; discriminate].
Qed.

(** C57 is violated: a list or tuple cannot be subtracted from a grid, nor can a grid be divided by it. *)
Theorem grid_sub_sequence_refuted : forall g d l, sub RN g (OSequence RN d l) = Err TypeError.
Proof. exact sub_sequence. Qed.
Print Assumptions grid_sub_sequence_refuted.
Theorem grid_div_sequence_refuted : forall g d l, div RN g (OSequence RN d l) = Err TypeError.
Proof. exact div_sequence. Qed.
Print Assumptions grid_div_sequence_refuted.

(** C06. *)
Theorem grid_views : forall g : grid RN,
  regular g ->
  (exists h, immutable RN g = Ok h /\ regular h /\ same_grid h g) /\
  (exists h, as_flat RN g = Ok h /\ regular h /\ ndim RN h = ndim RN g /\
     forall i, (i < ndim RN g)%nat -> coordinates h i = coordinates g i /\ flat RN h i = true) /\
  (exists h, as_non_flat RN g = Ok h /\ regular h /\ ndim RN h = ndim RN g /\
     forall i, (i < ndim RN g)%nat -> coordinates h i = coordinates g i /\ flat RN h i = false) /\
  (exists h, as_origin_at_center RN g = Ok h /\ regular h /\ ndim RN h = ndim RN g /\
     forall i, (i < ndim RN g)%nat -> coordinates h i = Ok (mono g i) /\ flat RN h i = flat RN g i) /\
  (exists h, as_origin_at_0 RN g = Ok h /\ regular h /\ ndim RN h = ndim RN g /\
     forall i, (i < ndim RN g)%nat -> flat RN h i = flat RN g i /\
       exists l, coordinates h i = Ok l /\ Permutation l (mono g i) /\
         forall j, (j < points g i)%nat -> nth j l 0 = nth ((j + points g i / 2) mod points g i) (mono g i) 0).
Proof. exact views_ok. Qed.
Print Assumptions grid_views.
Theorem grid_project : forall (g : grid RN) (keep remove : list Z),
  regular g -> (forall a, In a keep -> (- Z.of_nat (ndim RN g) <= a < Z.of_nat (ndim RN g))%Z) ->
  exists h, project RN g keep remove = Ok h /\ regular h /\ multidimensional RN h = true /\
    let kept := filter (fun a => negb (existsb (Nat.eqb a) (map (resolve (ndim RN g)) remove))) (map (resolve (ndim RN g)) keep) in
    ndim RN h = length kept /\
    forall i, (i < length kept)%nat ->
      (nth i kept 0 < ndim RN g)%nat /\ same_axis h i g (nth i kept 0%nat) /\ coordinates h i = coordinates g (nth i kept 0%nat).
Proof. exact project_ok. Qed.
Print Assumptions grid_project.
Theorem grid_project_out_of_range : forall (g : grid RN) (keep remove : list Z) (a : Z),
  In a keep -> (a < - Z.of_nat (ndim RN g) \/ Z.of_nat (ndim RN g) <= a)%Z -> project RN g keep remove = Err IndexError.
Proof. exact project_out_of_range. Qed.
Print Assumptions grid_project_out_of_range.
Theorem grid_transpose : forall g : grid RN,
  regular g ->
  exists h, transpose RN g = Ok h /\ regular h /\ multidimensional RN h = true /\ ndim RN h = ndim RN g /\
    forall i, (i < ndim RN g)%nat -> same_axis h i g (ndim RN g - 1 - i)%nat /\ coordinates h i = coordinates g (ndim RN g - 1 - i)%nat.
Proof. exact transpose_ok. Qed.
Print Assumptions grid_transpose.
Theorem grid_transpose_twice : forall g : grid RN,
  regular g -> exists h k, transpose RN g = Ok h /\ transpose RN h = Ok k /\ ndim RN k = ndim RN g /\
    forall i, (i < ndim RN g)%nat -> same_axis k i g i /\ coordinates k i = coordinates g i.
Proof. exact transpose_twice. Qed.
Print Assumptions grid_transpose_twice.
Theorem grid_swapaxes : forall (g : grid RN) (l : list nat),
  regular g -> NoDup l -> (forall a, In a l -> (a < ndim RN g)%nat) ->
  exists h, swapaxes RN g (map Z.of_nat l) = Ok h /\ regular h /\ ndim RN h = ndim RN g /\
    (forall i, (i < length l)%nat -> same_axis h (nth i l 0%nat) g (nth i (rev l) 0%nat)) /\
    (forall a, (a < ndim RN g)%nat -> ~ In a l -> same_axis h a g a).
Proof. exact swapaxes_ok. Qed.
Print Assumptions grid_swapaxes.
Theorem grid_tensor_product : forall g h : grid RN,
  regular g -> regular h ->
  exists k, matmul RN g h = Ok k /\ regular k /\ multidimensional RN k = true /\ ndim RN k = (ndim RN g + ndim RN h)%nat /\
    (forall i, (i < ndim RN g)%nat -> same_axis k i g i /\ coordinates k i = coordinates g i) /\
    (forall i, (i < ndim RN h)%nat -> same_axis k (ndim RN g + i) h i /\ coordinates k (ndim RN g + i) = coordinates h i).
Proof. exact matmul_ok. Qed.
Print Assumptions grid_tensor_product.
