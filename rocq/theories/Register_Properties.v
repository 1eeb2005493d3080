(** Registration: C45, C46, C97 (any number of dimensions), C98 (precision), C99 (weak subjects). *)
From Coq Require Import Reals List Arith Bool ZArith Lia Lra.
From Flocq Require Import Core.
Require Import Verif.Base Verif.CSum Verif.Field Verif.Fourier_Model Verif.Fourier_Spec Verif.Fourier_Proofs Verif.Vec_Model Verif.Modes_Model Verif.Modes_Proofs.
Require Import Verif.Shift_Model Verif.Shift_Spec Verif.Shift_Proofs Verif.Shift_Moves Verif.Register_Model Verif.Register_Spec Verif.Register_Proofs Verif.Register_Whole Verif.Register_Fine Verif.Register_Uses Verif.Register_Near Verif.Register_History Verif.Register_Limits Verif.Cplx.
Import ListNotations.
Local Open Scope R_scope.
Local Open Scope C_scope.

(** ** C45: integer displacements *)
(** To whole positions, for arrays of any number of dimensions: no shift and factor give a better match. *)
Theorem register_best_whole : forall s r f, lit s r -> lit s f -> at_most s 1 ->
  exists g, register s (Some f) (Some r) (Some 1%R) = Ok g /\ integer_shift s (g_shift g) /\ best s r f (integer_shift s) g.
Proof. intros s r f Lr Lf B. destruct (best_whole s r f 1 Lr Lf ltac:(lia) B) as (g & G & I & H & _). exists g. auto. Qed.
Print Assumptions register_best_whole.
(** A displaced and scaled reference is registered without error; with a single peak in the autocorrelation, the factor and the
    displacement, modulo the shape, are found. *)
Theorem register_displaced_partial : forall s r k d, lit s r -> at_most s 1 -> (/ 100000000 < Cmod k)%R -> (/ 100000000 < Cmod k * sqrt (norm2 s r))%R -> length d = length s ->
  exists g, register s (Some (fun p => k * cyclic s d r p)) (Some r) (Some 1%R) = Ok g /\ g_error g = Some 0%R /\ (exists h, image s g = Ok h /\ agree s h r) /\
    (single_peak s r -> g_shift g = reported s d /\ g_factor g = Finite k).
Proof. intros s r k d L B K K' D. exact (recovered_whole s r k d 1 L B K K' D ltac:(lia)). Qed.
Print Assumptions register_displaced_partial.
(** The reported shift is never negative. *)
Theorem register_shift_range : forall s r f g, lit s r -> register s (Some f) (Some r) (Some 1%R) = Ok g -> Forall2 (fun n x => 0 <= x < 2 * INR n)%R s (g_shift g).
Proof. intros s r f g L G. destruct (located_whole s r f 1 g L ltac:(lia) G) as (l & I & ->). apply whole_range, I. Qed.
Print Assumptions register_shift_range.
(** So displacements of less than half the shape to the left are not found: twice the size is added. *)
Theorem register_left_refuted : forall n r k d, lit [n] r -> at_most [n] 1 -> (/ 100000000 < Cmod k)%R -> (/ 100000000 < Cmod k * sqrt (norm2 [n] r))%R -> single_peak [n] r -> (- Z.of_nat n < 2 * d < 0)%Z ->
  exists g, register [n] (Some (fun p => k * cyclic [n] [d] r p)) (Some r) (Some 1%R) = Ok g /\ g_shift g = [IZR (d + 2 * Z.of_nat n)].
Proof.
  intros n r k d L B K K' S D. destruct (recovered_whole [n] r k [d] 1 L B K K' eq_refl ltac:(lia)) as (g & G & _ & _ & H). exists g. split; [exact G|]. destruct (H S) as [-> _]. unfold reported. cbn [combine map].
  replace (d mod Z.of_nat n)%Z with (d + Z.of_nat n)%Z by (apply (Z.mod_unique _ _ (-1)); lia). destruct (Z.ltb_spec (Z.of_nat n / 2) (d + Z.of_nat n)) as [Q|Q]; [f_equal; f_equal; lia|].
  exfalso. pose proof (Z.mul_div_le (Z.of_nat n) 2 ltac:(lia)). pose proof (Z.mod_pos_bound (Z.of_nat n) 2 ltac:(lia)). pose proof (Z.div_mod (Z.of_nat n) 2 ltac:(lia)). lia.
Qed.
Print Assumptions register_left_refuted.
(** The hypotheses hold for a point in an array. *)
Definition point4 : sfield := fun p => match p with [0]%nat => RtoC 1 | _ => RtoC 0 end.
Example register_case : lit [4]%nat point4 /\ at_most [4]%nat 1 /\ (/ 100000000 < Cmod Ci)%R /\ (/ 100000000 < Cmod Ci * sqrt (norm2 [4]%nat point4))%R /\ single_peak [4]%nat point4 /\ (- Z.of_nat 4 < 2 * -1 < 0)%Z.
Proof.
  assert (norm2 [4]%nat point4 = 1%R) as N. { unfold norm2. cbn. rewrite Cmod_0, Cmod_1. ring. }
  assert (Cmod Ci = 1%R) as I. { unfold Cmod, Ci. cbn. match goal with |- sqrt ?x = _ => replace x with 1%R by ring end. apply sqrt_1. }
  split; [exists [0]%nat; split; [repeat constructor|intros H; apply RtoC_inj in H; lra]|]. split; [constructor; [cbn; lra|constructor]|]. rewrite I, N, sqrt_1. split; [lra|]. split; [lra|]. split; [|lia].
  intros [|d [|]] D H; try discriminate. constructor; [|constructor]. rewrite N in H. unfold ip, cyclic in H. cbn [sum_over csum] in H. unfold point4 at 1 3 5 7 in H. rewrite !Cconj_R in H.
  change (wrapped [4]%nat [d] [0]%nat) with [Z.to_nat ((0 - d) mod 4)] in H. destruct (Z.eq_dec ((0 - d) mod 4) 0) as [E|E].
  - apply Z.mod_divide in E; [|lia]. destruct E as (c & E). exists (- c)%Z. lia.
  - exfalso. assert (point4 [Z.to_nat ((0 - d) mod 4)] = 0) as P. { pose proof (Z.mod_pos_bound (0 - d) 4 ltac:(lia)). destruct (Z.to_nat ((0 - d) mod 4)) eqn:Q; [lia|reflexivity]. }
    rewrite P in H. match type of H with Cmod ?x = _ => replace x with (RtoC 0) in H by ring end. rewrite Cmod_0 in H. lra.
Qed.

(** ** C97: any number of dimensions *)
(** The theorems above hold for any number of dimensions. With the default precision, all three-dimensional arrays but those of n x n x 192
    raise an exception. *)
Theorem register_3d_refuted : forall n0 n1 n2 f r, (n0 <> n1 \/ n2 <> 192)%nat -> register [n0; n1; n2] f r None = Err ValueError.
Proof. exact register_3d. Qed.
Print Assumptions register_3d_refuted.
Lemma default_precision s f r : register s f r None = register s f r (Some (/ IZR (2 * 64))%R).
Proof. unfold register. replace (1 / 128)%R with (/ IZR (2 * 64))%R; [reflexivity|]. cbn. field. Qed.
(** In one and two dimensions, the default does at least as well as all shifts of half points, and finds those. *)
Theorem register_default_best : forall s r f, lit s r -> lit s f -> (length s <= 2)%nat -> at_most s (/ 128) ->
  exists g, register s (Some f) (Some r) None = Ok g /\ multiples s (/ 128) (g_shift g) /\ best s r f (half_shift s) g.
Proof.
  intros s r f Lr Lf D B. destruct (best_fine s r f 64 Lr Lf D ltac:(lia) B) as (g & G & I & H & _). exists g. rewrite default_precision. split; [exact G|]. split; [|exact H]. split; [|exact I]. destruct H as (e & _ & _ & T & _). exact T.
Qed.
Print Assumptions register_default_best.
Theorem register_default_displaced : forall s r k t, lit s r -> (length s <= 2)%nat -> at_most s (/ 128) -> (/ 100000000 < Cmod k)%R -> (/ 100000000 < Cmod k * sqrt (norm2 s r))%R -> half_shift s t ->
  exists g, register s (Some (fun p => k * moved s t r p)) (Some r) None = Ok g /\ g_error g = Some 0%R /\ (exists h, image s g = Ok h /\ agree s h r) /\
    ((forall t', multiples s (/ 128) t' -> same_peak s r t') -> same_place s (g_shift g) t /\ g_factor g = Finite k).
Proof. intros s r k t L D B K K' H. rewrite default_precision. exact (recovered_fine s r k t 64 L D ltac:(lia) B K K' H). Qed.
Print Assumptions register_default_displaced.
Definition point2 : sfield := fun p => match p with [0]%nat => RtoC 1 | _ => RtoC 0 end.
Example register_default_case : lit [2]%nat point2 /\ at_most [2]%nat (/ 128) /\ (/ 100000000 < Cmod 1 * sqrt (norm2 [2]%nat point2))%R /\ half_shift [2]%nat [(1 / 2)%R] /\ forall t', multiples [2]%nat (/ 128) t' -> same_peak [2]%nat point2 t'.
Proof.
  assert (norm2 [2]%nat point2 = 1%R) as N. { unfold norm2. cbn. rewrite Cmod_0, Cmod_1. ring. }
  split; [exists [0]%nat; split; [repeat constructor|intros H; apply RtoC_inj in H; lra]|]. split; [constructor; [cbn; lra|constructor]|]. rewrite N, sqrt_1, Cmod_1. split; [lra|]. split; [split; [reflexivity|repeat constructor]; exists 1%Z; reflexivity|].
  intros t [T _] H. destruct t as [|x [|]]; try discriminate. rewrite N in H. cbn [same_place map]. split; [|exact I].
  assert (ip [2]%nat point2 (moved [2]%nat [x] point2) = (RtoC 1 + cis (PI * x)) / RtoC 2) as E.
  { transitivity (moved [2]%nat [x] point2 [0]%nat); [unfold ip; cbn [sum_over csum point2]; rewrite !Cconj_R; ring|]. unfold moved, interpolate. cbn [sum_over csum behind].
    assert (forall q, ft [2]%nat point2 [q] = 1) as F. { intros q. unfold ft. cbn [sum_over csum point2 phase]. replace (- (2 * PI * (INR 0 * INR q) / INR 2 + 0))%R with 0%R by (cbn; field). rewrite cis_0. ring. }
    rewrite !F. cbn [angle]. change (k_index 2 0) with 0%Z. change (k_index 2 1) with (-1)%Z. change (points [2]%nat) with 2%nat. replace (2 * PI * 0 * (INR 0 - x) / INR 2 + 0)%R with 0%R by (cbn; field). replace (2 * PI * IZR (-1) * (INR 0 - x) / INR 2 + 0)%R with (PI * x)%R by (cbn; field). rewrite cis_0. cbn [INR]. replace (1 + 1)%R with 2%R by ring. unfold Cdiv. ring. }
  rewrite E in H. assert (cos (PI * x) = 1)%R as Cs.
  { assert (RtoC 2 <> 0) as N2 by (intros Q; apply RtoC_inj in Q; lra). rewrite Cmod_div, Cmod_R, Rabs_pos_eq in H by (assumption || lra). assert (Cmod (RtoC 1 + cis (PI * x))%C = 2)%R as M by (apply (Rmult_eq_reg_r (/ 2)); [unfold Rdiv in H; lra|lra]).
    assert (Cmod (RtoC 1 + cis (PI * x))%C * Cmod (RtoC 1 + cis (PI * x))%C = 2 + 2 * cos (PI * x))%R as Q.
    { unfold Cmod. rewrite sqrt_sqrt by (pose proof (pow2_ge_0 (fst (RtoC 1 + cis (PI * x))%C)); pose proof (pow2_ge_0 (snd (RtoC 1 + cis (PI * x))%C)); lra). unfold cis. cbn. pose proof (sin2_cos2 (PI * x)) as SC. unfold Rsqr in SC. lra. }
    rewrite M in Q. lra. }
  replace (PI * x)%R with (2 * (PI * x / 2))%R in Cs by field. rewrite cos_2a_sin in Cs. assert (sin (PI * x / 2) = 0)%R as Sn by nra. apply sin_eq_0_0 in Sn as (c & Sn). exists c. pose proof PI_RGT_0. cbn. apply (Rmult_eq_reg_l (PI / 2)); [|lra]. lra.
Qed.

(** ** C98: the requested precision *)
(** With precision 1/(2m), the result is a multiple of the precision, and at least as good as all half points, and as all multiples of the
    precision within 3/4 of a point of the best half point. *)
Theorem register_precision_partial : forall s r f m, lit s r -> lit s f -> (length s <= 2)%nat -> (1 < m < 50000000)%Z -> at_most s (/ IZR (2 * m)) ->
  exists g t0, register s (Some f) (Some r) (Some (/ IZR (2 * m))%R) = Ok g /\ multiples s (/ IZR (2 * m)) (g_shift g) /\ optimal s r f (half_shift s) t0 /\
    Forall2 (fun x y => (Rabs (x - y) <= 3 / 4)%R) (g_shift g) t0 /\ best s r f (fun t => half_shift s t \/ multiples s (/ IZR (2 * m)) t /\ close (3 / 4) t t0) g.
Proof. exact best_near. Qed.
Print Assumptions register_precision_partial.
(** It is not always as good as all other multiples of the precision: there are three values for which another shift by a multiple of 1/4 is better. *)
Theorem register_elsewhere_refuted : exists g t a, register [3]%nat (Some wave3) (Some spot3) (Some (/ 4)%R) = Ok g /\ multiples [3]%nat (/ 4) t /\
  forall b, (misfit [3]%nat spot3 wave3 t a < misfit [3]%nat spot3 wave3 (g_shift g) b)%R.
Proof. exact elsewhere_better. Qed.
Print Assumptions register_elsewhere_refuted.
(** A precision up to 1e-8 gives whole points only. *)
Theorem register_high_precision_refuted : forall s f r x, (0 < x <= / 100000000)%R -> register s f r (Some x) = register s f r (Some 1%R).
Proof. exact register_small. Qed.
Print Assumptions register_high_precision_refuted.
Example register_precision_case : (0 < / 200000000 <= / 100000000)%R /\ at_most [2]%nat (/ IZR (2 * 8)).
Proof. split; [lra|]. constructor; [cbn; lra|constructor]. Qed.

(** ** C99: weak subjects *)
(** No difference in scale is too large, unless the factor or the product of factor and norm counts as zero. Then the registered image is zero,
    although the reported error is zero. *)
Theorem register_weak_refuted : forall s r (k : C) d, lit s r -> at_most s 1 -> k <> 0 -> (Cmod k <= / 100000000 \/ Cmod k * sqrt (norm2 s r) <= / 100000000)%R -> length d = length s ->
  exists g, register s (Some (fun p => k * cyclic s d r p)) (Some r) (Some 1%R) = Ok g /\ g_error g = Some 0%R /\ blank s g.
Proof. intros s r k d L B K W D. exact (weak_whole s r k d 1 L B K W D ltac:(lia)). Qed.
Print Assumptions register_weak_refuted.
(** No error is reported for a zero subject, though there is a match that differs by the norm of the reference. *)
Theorem register_zero_subject_refuted : forall s r g p, lit s r -> register s (Some (fun _ => RtoC 0)) (Some r) p = Ok g -> g_error g = None.
Proof. exact zero_subject. Qed.
Print Assumptions register_zero_subject_refuted.
Example register_weak_case : RtoC (/ 1000000000) <> 0 /\ (Cmod (RtoC (/ 1000000000)) <= / 100000000)%R /\ exists g, register [4]%nat (Some (fun _ => RtoC 0)) (Some point4) (Some 1%R) = Ok g.
Proof. split; [intros H; apply RtoC_inj in H; lra|]. rewrite Cmod_R, Rabs_pos_eq by lra. split; [lra|]. unfold register, register_ft, locate. rewrite (whole_IZR 1). destruct (whole_location _ _ _). eexists. reflexivity. Qed.

(** ** C46: histories *)
(** A Registration of an original image: after any history of reading, assigning and adding to shift, the original is the same and the image is the
    original, moved back by the last shift and divided by the factor. *)
Theorem registration_original_partial : forall s t z e w l, (/ 100000000 < Cmod z)%R -> Forall adding l -> resolved_history s t l ->
  let g := after s (make s t (Finite z) e (Some w) None) l in
  g_shift g = new_shifts t l /\ g_factor g = Finite z /\ (exists h, original s g = Ok h /\ agree s h w) /\ exists h, image s g = Ok h /\ agree s h (fun p => / z * moved s (back (new_shifts t l)) w p).
Proof. exact history_original. Qed.
Print Assumptions registration_original_partial.
(** A Registration of a registered image: likewise, without adding to shift. *)
Theorem registration_registered_partial : forall s t z e v l, (/ 100000000 < Cmod z)%R -> Forall plain l -> resolved_history s t l ->
  let g := after s (make s t (Finite z) e None (Some v)) l in
  g_shift g = new_shifts t l /\ g_factor g = Finite z /\ (exists h, original s g = Ok h /\ agree s h (fun p => z * moved s t v p)) /\ exists h, image s g = Ok h /\ agree s h (moved s (back (new_shifts t l)) (moved s t v)).
Proof. exact history_registered. Qed.
Print Assumptions registration_registered_partial.
(** After a change of its elements, the image is not that of the new shift once it has been read. *)
Theorem registration_elements_refuted : forall s t z e w t', (/ 100000000 < Cmod z)%R -> resolved_history s t [] -> length t' = length s ->
  let g := after s (make s t (Finite z) e (Some w) None) [ReadImage; SetElements t'] in
  g_shift g = t' /\ exists h, image s g = Ok h /\ agree s h (fun p => / z * moved s (back t) w p).
Proof.
  intros s t z e w t' Z H L g. split; [reflexivity|]. destruct (history_original s t z e w [ReadImage] Z) as (St & _ & _ & h & Ih & A); [repeat constructor|split; [apply H|exact H]|]. exists h. split; [|exact A]. rewrite <- Ih.
  unfold g, after. cbn [fold_left used]. set (g0 := keep_image _ _). unfold image, image_ft, replace_shift. cbn [g_shift g_factor registered_hat original_hat].
  change (g_shift g0) with (g_shift (after s (make s t (Finite z) e (Some w) None) [ReadImage])). rewrite St. cbn [new_shifts fold_left new_shift]. rewrite L, (proj1 (proj1 H)).
  unfold after in Ih. cbn [fold_left used] in Ih. fold g0 in Ih. clear - g0 Ih Z H. unfold image in Ih.
  assert (registered_hat g0 <> None) as N. { revert Ih. unfold g0, keep_image. destruct (image_ft s (make s t (Finite z) e (Some w) None)) as [F|err] eqn:E; [discriminate|]. rewrite ?E. discriminate. }
  destruct (registered_hat g0); [reflexivity|contradiction].
Qed.
Print Assumptions registration_elements_refuted.
(** Adding to the shift of a Registration of a registered image moves the original. *)
Theorem registration_add_refuted : forall s t d z e v, z <> 0 -> length t = length s -> length d = length s -> Forall2 resolved_shift s (both t d) ->
  let g := after s (make s t (Finite z) e None (Some v)) [AddToShift d] in exists h, original s g = Ok h /\ agree s h (fun p => z * moved s (both t d) v p).
Proof.
  intros s t d z e v Z L L' R g. assert (length (both t d) = length s) as Lb by (rewrite both_length; congruence). unfold g, after, make. cbn [fold_left used replace_shift set_shift g_shift registered_hat original_hat option_map original_ft g_factor g_error].
  change (map (fun x => (fst x + snd x)%R) (combine t d)) with (both t d). unfold set_shift, replace_shift, original_ft. cbn [registered_hat original_hat g_shift g_factor option_map].
  destruct (roll_ft_full s (both t d) (part_ft (right_mask s (length t)) s v) Lb R) as (G & -> & HG). cbn [rmap]. unfold original, original_ft. cbn [original_hat rmap g_shift]. eexists. split; [reflexivity|].
  intros p Hp. rewrite Lb, right_mask_full, part_ift_true by exact Hp. rewrite (moved_ift s (both t d) v Lb p Hp). rewrite <- ift_scal. apply ift_ext. intros q Hq. rewrite HG, L, right_mask_full, part_ft_true by exact Hq. ring.
Qed.
Print Assumptions registration_add_refuted.
(** Assigning a shift with fewer values than there are axes changes the original. *)
Theorem registration_fewer_refuted : forall e, let w := (fun p => match p with [0; 0]%nat => RtoC 1 | _ => RtoC 0 end) : sfield in
  exists h, original [2; 1]%nat (after [2; 1]%nat (make [2; 1]%nat [0%R; 0%R] (Finite (RtoC 1)) e (Some w) None) [SetShift [0%R]]) = Ok h /\ h [1; 0]%nat = 1 /\ w [1; 0]%nat = 0.
Proof.
  intros e w. unfold after. cbn [fold_left used set_shift make registered_hat option_map replace_shift original original_ft original_hat rmap g_shift]. eexists. split; [reflexivity|]. split; [|reflexivity].
  cbn [right_mask length seq map Nat.leb Nat.add part_ift part_ft csum]. unfold w. replace (2 * PI * (INR 0 * INR 0) / INR 1)%R with 0%R by (cbn; field). replace (2 * PI * (INR 0 * INR 1) / INR 2)%R with 0%R by (cbn; field). rewrite !Ropp_0, !cis_0. cbn [INR]. field. intros H. apply RtoC_inj in H. lra.
Qed.
Print Assumptions registration_fewer_refuted.
(** A history that meets the hypotheses. *)
Example registration_case : Forall adding [ReadImage; SetShift [1%R]; ReadOriginal; AddToShift [1%R]; ReadImage] /\ resolved_history [3]%nat [0%R] [ReadImage; SetShift [1%R]; ReadOriginal; AddToShift [1%R]; ReadImage] /\ Forall plain [ReadOriginal; SetShift [1%R]].
Proof.
  assert (forall d, (1 <= d)%R -> resolved_shift 3 d) as R. { intros d D. right. rewrite !Rabs_pos_eq; [|pose proof PI_RGT_0; apply Rmult_le_pos; [nra|cbn; lra]|lra]. split; [lra|]. pose proof PI2_1 as P. unfold PI2 in P. apply (Rmult_lt_reg_r 3); [lra|]. replace (2 * PI * d / INR 3 * 3)%R with (2 * PI * d)%R by (cbn; field). nra. }
  split; [repeat constructor|]. split; [|repeat constructor]. cbn [resolved_history new_shift both combine map fst snd]. repeat split; try reflexivity; (apply Forall2_cons; [|apply Forall2_nil]); first [left; reflexivity | apply R; lra].
Qed.
