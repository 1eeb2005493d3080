(** Theorems about grids in double precision arithmetic. *)
From Coq Require Import ZArith Reals Lia Lra List.
From Flocq Require Import Core.Core IEEE754.BinarySingleNaN.
From Verif Require Import Base Num Grid_Model Grid_Proofs Float_Model Float_Spec Float_Basics Float_Proofs Float_Accuracy
  Float_Construct Float_Derived Float_Examples.
Local Open Scope R_scope.

(** C117. Sampling points.  The points of an axis never go backwards, whatever the rounding. *)
Theorem float_points_ordered : forall (g : grid BN) (i j l : nat), sized g i -> natural_order g i ->
  (j <= l)%nat -> (Z.of_nat l < shape BN g i)%Z -> finite (coordinate g i j) -> finite (coordinate g i l) ->
  (0 <= val (spacing g i) -> val (coordinate g i j) <= val (coordinate g i l)) /\
  (val (spacing g i) <= 0 -> val (coordinate g i l) <= val (coordinate g i j)).
Proof. exact points_ordered. Qed.
Print Assumptions float_points_ordered.

(** The center is hit exactly. *)
Theorem float_center_exact : forall (g : grid BN) (i : nat), sized g i -> natural_order g i -> center_is_point g i ->
  finite (spacing g i) -> finite (middle g i) ->
  finite (coordinate g i (Z.to_nat (shape BN g i / 2))) /\
  val (coordinate g i (Z.to_nat (shape BN g i / 2))) = val (middle g i).
Proof. exact center_exact. Qed.
Print Assumptions float_center_exact.

(** In the order of the FFT the center comes first: the frequency zero is exactly zero. *)
Theorem float_fft_origin : forall (g : grid BN) (i : nat), sized g i -> fft_order g i -> center_is_point g i ->
  finite (spacing g i) -> finite (middle g i) ->
  finite (coordinate g i 0) /\ val (coordinate g i 0) = val (middle g i).
Proof. exact fft_origin. Qed.
Print Assumptions float_fft_origin.

(** The points around a center at 0 are opposite to one another, exactly. *)
Theorem float_points_symmetric : forall (g : grid BN) (i k : nat), sized g i -> natural_order g i ->
  center_is_point g i -> val (middle g i) = 0 -> finite (middle g i) -> finite (spacing g i) ->
  let h := Z.to_nat (shape BN g i / 2) in
  (k <= h)%nat -> (Z.of_nat (h + k) < shape BN g i)%Z -> finite (coordinate g i (h + k)) ->
  finite (coordinate g i (h - k)) /\ val (coordinate g i (h - k)) = - val (coordinate g i (h + k)).
Proof. exact points_symmetric. Qed.
Print Assumptions float_points_symmetric.

(** The property [first] is the first point, exactly. *)
Theorem float_first_is_point : forall (g : grid BN) (i : nat), sized g i -> natural_order g i ->
  finite (first BN g i) -> finite (coordinate g i 0) /\ val (first BN g i) = val (coordinate g i 0).
Proof. exact first_is_point. Qed.
Print Assumptions float_first_is_point.

(** Every point is where it should be to within eight unit roundoffs of the largest number involved. *)
Theorem float_points_accurate : forall (g : grid BN) (i j : nat), sized g i -> natural_order g i ->
  (Z.of_nat j < shape BN g i)%Z -> finite (coordinate g i j) ->
  Rabs (val (coordinate g i j) - position g i j) <= 8 * unit_roundoff * magnitude g i + 2 * smallest.
Proof. exact coordinate_accurate. Qed.
Print Assumptions float_points_accurate.

(** Points are distinct when the step is not lost in the rounding. *)
Theorem float_points_distinct : forall (g : grid BN) (i j l : nat), sized g i -> natural_order g i ->
  (j < l)%nat -> (Z.of_nat l < shape BN g i)%Z -> finite (coordinate g i j) -> finite (coordinate g i l) ->
  16 * unit_roundoff * magnitude g i + 4 * smallest < val (spacing g i) ->
  val (coordinate g i j) < val (coordinate g i l).
Proof. exact coordinates_distinct. Qed.
Print Assumptions float_points_distinct.

(** Without that condition they may coincide: [Grid(shape=4, step=1.0, center=2.0**53)]. *)
Definition far_axis : args BN :=
  call (counts [4%Z]) (Some (DFlt, [nofZ BN 1])) None None (Some (DFlt, [nofZ BN (2 ^ 53)])) None.
Theorem float_points_coincide_refuted :
  exists g, construct BN far_axis = Ok g /\ sized g 0 /\ val (spacing g 0) = 1 /\
    same_double (coordinate g 0 2) (coordinate g 0 3).
Proof.
  assert (rmap (fun g => (shape BN g 0%nat, (Beqb (spacing g 0) (nofZ BN 1 : b64), Beqb (coordinate g 0 2) (coordinate g 0 3))))
            (construct BN far_axis) = Ok (4%Z, (true, true))) as H by (vm_compute; reflexivity).
  destruct (rmap_ok _ _ _ H) as (g & E & V). injection V as V1 V2 V3. exists g. split; [exact E|].
  split; [unfold sized; rewrite V1; lia|]. split; [|exact V3].
  destruct (eqb_finite (nofZ BN 1) (spacing g 0)) as [_ K]; [apply ofZ_fin; lia|exact (eqb_sym _ _ V2)|].
  rewrite <- K. apply ofZ_eq. lia.
Qed.
Print Assumptions float_points_coincide_refuted.

(** C118. Arguments.  A number of points, a step and a center are taken as they are. *)
Theorem float_given_exact : forall (sh : list Z) (ds dc : dt) (st ce : list BN),
  counted sh -> (1 <= length sh)%nat -> length st = length sh -> length ce = length sh ->
  exists g, construct BN (call (counts sh) (Some (ds, st)) None None (Some (dc, ce)) None) = Ok g /\
    ndim BN g = length sh /\ multidimensional BN g = true /\ short_step BN g = false /\
    forall i, (i < length sh)%nat ->
      shape BN g i = nth i sh 0%Z /\ spacing g i = item st i /\ middle g i = item ce i /\
      natural_order g i /\ center_at_index BN g i = true.
Proof. exact given_exact. Qed.
Print Assumptions float_given_exact.

(** A number of points, a first point and a step are accepted; the first point reads back almost unchanged. *)
Theorem float_first_accepted : forall (sh : list Z) (ds df : dt) (st fi : list BN),
  counted sh -> (1 <= length sh)%nat -> length st = length sh -> length fi = length sh -> join df ds = DFlt ->
  (forall i, (i < length sh)%nat -> fits (item fi i) (item st i) (nth i sh 0%Z)) ->
  exists g, construct BN (call (counts sh) (Some (ds, st)) None (Some (df, fi)) None None) = Ok g /\
    forall i, (i < length sh)%nat ->
      shape BN g i = nth i sh 0%Z /\ spacing g i = item st i /\ natural_order g i /\
      (finite (first BN g i) ->
       Rabs (val (first BN g i) - val (item fi i))
       <= unit_roundoff * (Rabs (val (middle g i)) + Rabs (val (first BN g i)))).
Proof.
  intros sh ds df st fi C P L1 L2 J F. destruct (first_step sh ds df st fi C P L1 L2 J F) as (g & E & _ & _ & _ & A).
  exists g. split; [exact E|]. intros i Hi. destruct (A i Hi) as (B1 & B2 & B3 & B4 & B5).
  refine (conj B1 (conj B2 (conj B4 _))). intros Ff. apply first_read_back; auto.
  - unfold sized. rewrite B1. apply counts_nth; auto.
  - rewrite B1, B2. exact B3.
Qed.
Print Assumptions float_first_accepted.

(** A number of points and an extent are accepted; the extent reads back almost unchanged. *)
Theorem float_extent_accepted : forall (sh : list Z) (ex : list BN),
  counted sh -> (1 <= length sh)%nat -> length ex = length sh ->
  (forall i, (i < length sh)%nat -> divisible (item ex i) (nth i sh 0%Z)) ->
  exists g, construct BN (call (counts sh) None (Some (DFlt, ex)) None None None) = Ok g /\
    forall i, (i < length sh)%nat ->
      shape BN g i = nth i sh 0%Z /\ val (middle g i) = 0 /\
      (finite (extent BN g i) ->
       Rabs (val (extent BN g i) - val (item ex i)) <= 3 * unit_roundoff * Rabs (val (item ex i)) + smallest).
Proof.
  intros sh ex C P L D. destruct (extent_shape sh ex C P L D) as (g & E & _ & A). exists g. split; [exact E|].
  intros i Hi. destruct (A i Hi) as (B1 & B2 & B3 & B4 & B5 & B6).
  refine (conj B1 (conj B4 _)). intros Ff. apply extent_read_back; auto.
  - unfold sized. rewrite B1. apply counts_nth; auto.
  - rewrite B1. apply D. exact Hi.
  - rewrite B1. exact B3.
Qed.
Print Assumptions float_extent_accepted.

(** A step and an extent are accepted; there are never more points than in exact arithmetic, and at most one fewer. *)
Theorem float_extent_points : forall (ds de : dt) (st ex : list BN),
  (1 <= length st)%nat -> length ex = length st ->
  (forall i, (i < length st)%nat -> quotient_ok (item ex i) (item st i)) ->
  exists g, construct BN (call None (Some (ds, st)) (Some (de, ex)) None None None) = Ok g /\
    forall i, (i < length st)%nat ->
      (Zceil (quotient (item ex i) (item st i)) - 1 <= shape BN g i <= Zceil (quotient (item ex i) (item st i)))%Z /\
      spacing g i = item st i.
Proof.
  intros ds de st ex P L Q. destruct (extent_step ds de st ex P L Q) as (g & E & _ & A). exists g. split; [exact E|].
  intros i Hi. destruct (A i Hi) as (B1 & B2 & _). split; [|exact B2]. destruct (Q i Hi) as (_ & _ & Pe & Ps & B).
  assert (0 < quotient (item ex i) (item st i)) as Pq by (apply Rdiv_lt_0_compat; assumption).
  destruct (ceil_rounded _ (conj Pq B)) as ((K1 & K2) & _ & _). rewrite B1.
  assert (0 < Zceil (quotient (item ex i) (item st i)))%Z by (apply lt_IZR; pose proof (Zceil_ub (quotient (item ex i) (item st i))); lra).
  lia.
Qed.
Print Assumptions float_extent_points.

(** A number of points with a first and a last point: always accepted in exact arithmetic ... *)
Theorem float_linspace_exact : forall (sh : list Z) (fi la : list BN),
  counted sh -> length fi = length sh -> length la = length sh ->
  exists g, construct RN (exact (call (counts sh) None None (Some (DFlt, fi)) None (Some (DFlt, la)))) = Ok g.
Proof. exact exact_linspace. Qed.
Print Assumptions float_linspace_exact.
(** ... but not in double precision: [Grid(shape=49, first=0.0, last=1.0)] raises an exception, *)
Theorem float_linspace_refuted :
  construct BN (call (counts [49%Z]) None None (Some (DFlt, [nofZ BN 0])) None (Some (DFlt, [nofZ BN 1]))) = Err ValueError /\
  construct BN (call (counts [49%Z]) None None (Some (DInt, [nofZ BN 0])) None (Some (DInt, [nofZ BN 1]))) = Err ValueError.
Proof. split; apply (rmap_err (fun _ => tt)); vm_compute; reflexivity. Qed.
Print Assumptions float_linspace_refuted.
(** as do [Grid(shape=98, first=0.0, center=1.0)] *)
Theorem float_center_first_refuted :
  construct BN (call (counts [98%Z]) None None (Some (DFlt, [nofZ BN 0])) (Some (DFlt, [nofZ BN 1])) None) = Err ValueError.
Proof. apply (rmap_err (fun _ => tt)). vm_compute. reflexivity. Qed.
Print Assumptions float_center_first_refuted.
(** and [Grid(first=0, last=0.3, step=0.1)]; with [last=0.4] there are four points. *)
Theorem float_decimal_refuted :
  construct BN (call None (Some (DFlt, [literal 1 10])) None (Some (DInt, [nofZ BN 0])) None (Some (DFlt, [literal 3 10]))) = Err ValueError /\
  rmap (fun g => shape BN g 0%nat)
    (construct BN (call None (Some (DFlt, [literal 1 10])) None (Some (DInt, [nofZ BN 0])) None (Some (DFlt, [literal 4 10])))) = Ok 4%Z.
Proof. split; [apply (rmap_err (fun _ => tt))|]; vm_compute; reflexivity. Qed.
Print Assumptions float_decimal_refuted.

(** C119. Rebuilding a grid from its own properties.  The views of a grid have its points, bit for bit. *)
Theorem float_views_exact : forall g : grid BN, ordinary g ->
  List.Forall (fun view => exists h, view g = Ok h /\ ndim BN h = ndim BN g /\
      forall i, (i < ndim BN g)%nat ->
        shape BN h i = shape BN g i /\ spacing h i = spacing g i /\ middle h i = middle g i /\
        center_at_index BN h i = center_at_index BN g i)
    [immutable BN; as_flat BN; as_non_flat BN; as_origin_at_0 BN; as_origin_at_center BN].
Proof.
  intros g O.
  assert (forall fl oac a, (fl = flag_arg BN g (flat BN g) \/ exists b, fl = BScalar b) ->
    (oac = flag_arg BN g (origin_at_center BN g) \/ exists b, oac = BScalar b) ->
    a_shape BN a = a_shape BN (dict BN g) -> a_step BN a = a_step BN (dict BN g) ->
    a_center BN a = a_center BN (dict BN g) -> a_extent BN a = None -> a_first BN a = None -> a_last BN a = None ->
    a_ndim BN a = None -> a_flat BN a = fl -> a_origin_at_center BN a = oac ->
    a_center_at_index BN a = a_center_at_index BN (dict BN g) -> a_include_last BN a = BScalar false ->
    exists h, construct BN a = Ok h /\ ndim BN h = ndim BN g /\
      forall i, (i < ndim BN g)%nat ->
        shape BN h i = shape BN g i /\ spacing h i = spacing g i /\ middle h i = middle g i /\
        center_at_index BN h i = center_at_index BN g i) as K.
  { intros fl oac a H1 H2 H3 H4 H5 H6 H7 H8 H9 H10 H11 H12 H13.
    destruct (view_flags g fl oac O H1 H2 a H3 H4 H5 H6 H7 H8 H9 H10 H11 H12 H13) as (h & E & N & _ & A).
    exists h. split; [exact E|]. split; [exact N|]. intros i Hi. destruct (A i Hi) as (B1 & B2 & B3 & B4 & _). auto. }
  unfold immutable, as_flat, as_non_flat, as_origin_at_0, as_origin_at_center.
  repeat apply Forall_cons; try apply Forall_nil;
    cbv beta; match goal with |- exists h, construct BN ?a = _ /\ _ =>
    refine (K (a_flat BN a) (a_origin_at_center BN a) a _ _ eq_refl eq_refl eq_refl eq_refl eq_refl eq_refl eq_refl eq_refl eq_refl eq_refl eq_refl) end;
    ((left; reflexivity) || (right; eexists; reflexivity)).
Qed.
Print Assumptions float_views_exact.

(** The frequency grid has the same number of points, its frequency zero is exactly zero, and its step is the inverse
    of the extent to within three unit roundoffs. *)
Theorem float_frequencies : forall g : grid BN, ordinary g -> (forall i, (i < ndim BN g)%nat -> invertible g i) ->
  exists f, f_grid BN g = Ok f /\ ndim BN f = ndim BN g /\
    forall i, (i < ndim BN g)%nat ->
      shape BN f i = shape BN g i /\ fft_order f i /\ val (coordinate f i 0) = 0 /\
      Rabs (val (spacing f i) * (IZR (shape BN g i) * val (spacing g i)) - 1) <= 3 * unit_roundoff.
Proof.
  intros g O Inv. destruct (frequencies g O Inv) as (f & E & N & (_ & _ & _ & S) & A). exists f.
  split; [exact E|]. split; [exact N|]. intros i Hi. destruct (A i Hi) as (B1 & B2 & B3 & B4 & B5 & B6 & B7).
  refine (conj B1 (conj B2 (conj _ B7))). rewrite <- B6. apply fft_origin; auto.
  - apply S. rewrite N. exact Hi.
  - left. exact B3.
Qed.
Print Assumptions float_frequencies.

(** Not exact: the extent of a grid with three points of step 0.1 and its step give a grid with four points; *)
Definition tenths : args BN := call (counts [3%Z]) (Some (DFlt, [literal 1 10])) None None None None.
Theorem float_extent_round_trip_refuted :
  exists g h, construct BN tenths = Ok g /\
    construct BN (call None (Some (DFlt, [spacing g 0])) (Some (DFlt, [extent BN g 0])) None None None) = Ok h /\
    shape BN g 0%nat = 3%Z /\ shape BN h 0%nat = 4%Z.
Proof.
  assert ((do g <- construct BN tenths;
           rmap (fun h => (shape BN g 0%nat, shape BN h 0%nat))
             (construct BN (call None (Some (DFlt, [spacing g 0])) (Some (DFlt, [extent BN g 0])) None None None))) = Ok (3%Z, 4%Z)) as H
    by (vm_compute; reflexivity).
  apply bind_ok in H. destruct H as (g & E & H). destruct (rmap_ok _ _ _ H) as (h & E2 & V). injection V as V1 V2.
  exists g, h. auto.
Qed.
Print Assumptions float_extent_round_trip_refuted.
(** the first point of [Grid(shape=2, first=0.1, step=0.2)] is not 0.1; *)
Theorem float_first_refuted :
  exists g, construct BN (call (counts [2%Z]) (Some (DFlt, [literal 2 10])) None (Some (DFlt, [literal 1 10])) None None) = Ok g /\
    different_double (first BN g 0) (literal 1 10).
Proof.
  destruct (rmap_ok (fun g => neqb BN (first BN g 0) (literal 1 10))
    (construct BN (call (counts [2%Z]) (Some (DFlt, [literal 2 10])) None (Some (DFlt, [literal 1 10])) None None)) false) as (g & E & V);
    [vm_compute; reflexivity|]. exists g. split; [exact E|exact V].
Qed.
Print Assumptions float_first_refuted.
(** and the frequency grid of the frequency grid is not the grid: 49 points with step 1. *)
Theorem float_frequencies_twice_refuted :
  exists g f h, construct BN (call (counts [49%Z]) (Some (DFlt, [nofZ BN 1])) None None None None) = Ok g /\
    f_grid BN g = Ok f /\ f_grid BN f = Ok h /\ different_double (spacing h 0) (spacing g 0).
Proof.
  assert ((do g <- construct BN (call (counts [49%Z]) (Some (DFlt, [nofZ BN 1])) None None None None);
           do f <- f_grid BN g; rmap (fun h => neqb BN (spacing h 0) (spacing g 0)) (f_grid BN f)) = Ok false) as H
    by (vm_compute; reflexivity).
  apply bind_ok in H. destruct H as (g & E & H). apply bind_ok in H. destruct H as (f & E2 & H).
  destruct (rmap_ok _ _ _ H) as (h & E3 & V). exists g, f, h. auto.
Qed.
Print Assumptions float_frequencies_twice_refuted.

(** The hypotheses are met: seven points with step 0.1 around 0.3. *)
Definition sevenths : args BN :=
  call (counts [7%Z]) (Some (DFlt, [literal 1 10])) None None (Some (DFlt, [literal 3 10])) None.
Example float_axis : exists g, construct BN sevenths = Ok g /\ sized g 0 /\ natural_order g 0 /\ center_is_point g 0 /\
  finite (spacing g 0) /\ finite (middle g 0) /\ finite (first BN g 0) /\ ordinary g /\
  (forall j, (j < 7)%nat -> finite (coordinate g 0 j)).
Proof.
  destruct (rmap_ok (fun g => ((ndim BN g, shape BN g 0%nat, origin_at_center BN g 0%nat, center_at_index BN g 0%nat),
      (multidimensional BN g, short_step BN g, is_finite (spacing g 0 : b64), is_finite (middle g 0 : b64), is_finite (first BN g 0 : b64)),
      forallb (fun j => is_finite (coordinate g 0 j : b64)) (seq 0 7)))
    (construct BN sevenths) ((1%nat, 7%Z, true, true), (true, false, true, true, true), true)) as (g & E & V); [vm_compute; reflexivity|].
  assert (forallb (fun j => is_finite (coordinate g 0 j : b64)) (seq 0 7) = true) as V10 by exact (f_equal snd V).
  apply (f_equal fst) in V. cbn [fst] in V. injection V as V1 V2 V3 V4 V5 V6 V7 V8 V9. exists g. split; [exact E|].
  assert (sized g 0) as S by (unfold sized; rewrite V2; lia).
  refine (conj S (conj V3 (conj (or_introl V4) (conj V7 (conj V8 (conj V9 (conj _ _))))))).
  - refine (conj _ (conj V5 (conj V6 _))); rewrite V1; [lia|]. intros [|i] Hi; [exact S|lia].
  - intros j Hj. rewrite forallb_forall in V10. apply V10. apply in_seq. lia.
Qed.
Example float_call : counted [49%Z; 3%Z] /\ fits (literal 1 10) (literal 2 10) 49 /\
  quotient_ok (nofZ BN 3) (nofZ BN 2) /\ divisible (nofZ BN 1) 49.
Proof.
  refine (conj _ (conj _ (conj _ _))).
  - repeat constructor; lia.
  - vm_compute. reflexivity.
  - unfold quotient_ok, quotient. rewrite !ofZ_eq by lia.
    refine (conj _ (conj _ (conj _ (conj _ _)))); [apply ofZ_fin; lia|apply ofZ_fin; lia|lra|lra|].
    apply Rle_trans with 2; [lra|apply IZR_le; lia].
  - split; [apply ofZ_fin; lia|]. unfold normal. rewrite ofZ_eq by lia. rewrite Rabs_pos_eq by lra.
    apply Rle_trans with (bpow radix2 (-10)); [apply bpow_le; lia|]. change (bpow radix2 (-10)) with (/ 1024). lra.
Qed.
(** Seven points with step 1 around 0. *)
Example float_units : exists g,
  construct BN (call (counts [7%Z]) (Some (DFlt, [nofZ BN 1])) None None (Some (DFlt, [nofZ BN 0])) None) = Ok g /\
  ordinary g /\ (forall i, (i < ndim BN g)%nat -> invertible g i) /\ val (middle g 0) = 0 /\
  16 * unit_roundoff * magnitude g 0 + 4 * smallest < val (spacing g 0).
Proof.
  destruct (given_exact [7%Z] DFlt DFlt [nofZ BN 1] [nofZ BN 0]) as (g & E & N & M & S & A);
    [repeat constructor; lia|cbn; lia|reflexivity|reflexivity|]. cbn [length] in *.
  destruct (A 0%nat ltac:(lia)) as (B1 & B2 & B3 & B4 & B5). cbn [nth item] in B1, B2, B3.
  unfold item in B2, B3. cbn [nth] in B2, B3.
  assert (val (spacing g 0) = 1) as V1 by (rewrite B2; apply ofZ_eq; lia).
  assert (val (middle g 0) = 0) as V0 by (rewrite B3; apply ofZ_eq; lia).
  exists g. split; [exact E|]. refine (conj (conj _ (conj M (conj S _))) (conj _ (conj V0 _))).
  - rewrite N. lia.
  - rewrite N. intros [|i] Hi; [|lia]. unfold sized. rewrite B1. lia.
  - rewrite N. intros [|i] Hi; [|lia]. split; [rewrite B2; apply ofZ_fin; lia|]. rewrite B1, V1, Rmult_1_r, Rabs_pos_eq by lra.
    split; [apply Rle_trans with (bpow radix2 0)|apply Rle_trans with (bpow radix2 3)]; try (apply bpow_le; lia); cbn; lra.
  - unfold magnitude. rewrite V1, V0, B1, Rabs_R0, Rabs_R1. unfold unit_roundoff, smallest.
    assert (bpow radix2 (-53) <= bpow radix2 (-10)) as H1 by (apply bpow_le; lia).
    assert (bpow radix2 (-1074) <= bpow radix2 (-10)) as H2 by (apply bpow_le; lia).
    change (bpow radix2 (-10)) with (/ 1024) in *. lra.
Qed.
