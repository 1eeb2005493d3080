(** Registration to whole points, to half points, and to fractions of points. *)
From Coq Require Import Reals List Arith Bool ZArith Lia Lra.
From Flocq Require Import Core.
Require Import Verif.Base Verif.CSum Verif.Field Verif.Fourier_Model Verif.Fourier_Spec Verif.Fourier_Proofs Verif.Vec_Model Verif.Modes_Model Verif.Modes_Proofs.
Require Import Verif.Shift_Model Verif.Shift_Spec Verif.Shift_Proofs Verif.Shift_Moves Verif.Register_Model Verif.Register_Spec Verif.Register_Proofs Verif.Register_Whole Verif.Cplx.
Import ListNotations.
Local Open Scope R_scope.
Local Open Scope C_scope.

(** ** Whole points *)
Lemma angle_index s : forall q p, nonempty s -> length p = length s -> cis (angle s q (at_index p)) = cis (phase s p q).
Proof.
  induction s as [|n s IH]; intros [|i q] [|j p] S L; try discriminate; cbn [angle at_index map phase]; try reflexivity. inversion S; subst. rewrite !cis_plus. fold (at_index p). rewrite (IH q p) by (assumption || (injection L; auto)). rewrite cis_k by assumption. reflexivity.
Qed.
Lemma ift_val s X p : inside s p -> ift s X p = val s X (at_index p).
Proof.
  intros Hp. pose proof (inside_nonempty _ _ Hp) as S. unfold ift, val. f_equal. apply sum_over_ext. intros q _. rewrite angle_index; [reflexivity|exact S|]. clear -Hp. induction Hp; cbn; auto.
Qed.
Lemma whole_place s : forall l, length l = length s -> same_place s (whole_shift s l) (at_index l) /\ integer_shift s (whole_shift s l).
Proof.
  unfold integer_shift. induction s as [|n s IH]; intros [|i l] L; try discriminate; [repeat split; constructor|]. injection L as L. destruct (IH l L) as (P & LL & F). unfold whole_shift in *. cbn [combine map same_place at_index]. split; [split; [|exact P]|].
  - destruct (_ <? _)%nat; [exists 1%Z|exists 0%Z]; ring.
  - split; [cbn; f_equal; exact LL|]. constructor; [|exact F]. destruct (_ <? _)%nat; [exists (Z.of_nat i + Z.of_nat n)%Z; rewrite plus_IZR|exists (Z.of_nat i)]; rewrite <- ?INR_IZR_INZ; reflexivity.
Qed.
Lemma integer_place s : forall t, nonempty s -> integer_shift s t -> exists p, inside s p /\ same_place s t (at_index p).
Proof.
  induction s as [|n s IH]; intros t S [L I]; destruct t as [|d t]; try discriminate; [exists []; split; constructor|]. injection L as L. inversion I as [|? ? (z & ->) I']; subst. inversion S; subst. destruct (IH t) as (p & Hp & P); [assumption|split; assumption|].
  exists (Z.to_nat (z mod Z.of_nat n) :: p). pose proof (Z.mod_pos_bound z (Z.of_nat n) ltac:(lia)). split; [constructor; [lia|exact Hp]|]. cbn [same_place at_index map]. split; [|exact P].
  exists (z / Z.of_nat n)%Z. rewrite !INR_IZR_INZ, Z2Nat.id, <- mult_IZR, <- plus_IZR by lia. f_equal. pose proof (Z.div_mod z (Z.of_nat n) ltac:(lia)). lia.
Qed.
Lemma inside_length s p : inside s p -> length p = length s.
Proof. induction 1; cbn; auto. Qed.
Lemma locate_whole s X precision : nonempty s -> whole precision = true -> precision <> 0%R ->
  exists t, locate s X precision = Ok (t, val s X t) /\ integer_shift s t /\ forall t', integer_shift s t' -> (Cmod (val s X t') <= Cmod (val s X t))%R.
Proof.
  intros S W N. unfold locate, whole_location. rewrite W. destruct (Req_EM_T precision 0) as [E|_]; [contradiction|]. destruct (argmax_spec s (fun p => Cmod (ift s X p)) S) as [I M]. set (l := argmax _ _) in *. clearbody l.
  destruct (whole_place s l (inside_length _ _ I)) as [P F]. exists (whole_shift s l). assert (val s X (whole_shift s l) = ift s X l) as V by (rewrite ift_val by exact I; apply val_place; assumption).
  rewrite V. split; [reflexivity|]. split; [exact F|]. intros t' H. destruct (integer_place s t' S H) as (p & Hp & P'). rewrite (val_place s X _ _ S P'), <- ift_val by exact Hp. apply M, Hp.
Qed.
Lemma whole_IZR z : whole (IZR z) = true.
Proof.
  unfold whole. replace (ZnearestE (IZR z)) with z by (symmetry; apply Znearest_imp; rewrite Rminus_eq_0, Rabs_R0; lra). apply near_zero_true. rewrite Rminus_eq_0, Rabs_R0. lra.
Qed.
Lemma whole_0 : whole 0 = true.
Proof. exact (whole_IZR 0). Qed.
Lemma locate_zero s X : nonempty s -> locate s X 0 = Ok (map (fun _ => 0%R) s, val s X (map (fun _ => 0%R) s)).
Proof.
  intros S. unfold locate, whole_location. rewrite whole_0.
  destruct (Req_EM_T 0 0) as [_|E]; [|contradiction]. f_equal. f_equal.
  - unfold whole_shift. induction s as [|n s IH]; [reflexivity|]. inversion S; subst. cbn [map combine]. rewrite IH by assumption. f_equal.
  - unfold val. f_equal. apply sum_over_ext. intros q _. rewrite zero_angle, cis_0; [ring|]. apply Forall_forall. intros x Hx. apply in_map_iff in Hx as (n & <- & _). reflexivity.
Qed.

(** ** Half points *)
Definition half_index (l : list nat) : list R := map (fun x => (INR x / 2)%R) l.
Lemma csum_app a b (f : nat -> C) : csum (a + b) f = csum a f + csum b (fun i => f (a + i)%nat).
Proof. induction b as [|b IH]; [rewrite Nat.add_0_r; cbn; ring|]. rewrite Nat.add_succ_r. cbn [csum]. rewrite IH. ring. Qed.
Lemma padded_low n i : (i < n)%nat -> padded_index n i = if (2 * i <? n)%nat then Some i else None.
Proof.
  intros H. unfold padded_index. rewrite (Nat.mul_comm 2 n), Nat.div_mul by lia. rewrite Nat.mod_small by lia. pose proof (Nat.div_mod n 2 ltac:(lia)) as D. pose proof (Nat.mod_upper_bound n 2 ltac:(lia)).
  destruct (Nat.leb_spec (n - n / 2) (i + n)); [|lia]. cbn [andb]. destruct (Nat.ltb_spec (i + n) (n - n / 2 + n)), (Nat.ltb_spec (2 * i) n); try lia; [|reflexivity].
  f_equal. replace (i + n - (n - n / 2) + (n - n / 2))%nat with (i + 1 * n)%nat by lia. rewrite Nat.mod_add by lia. apply Nat.mod_small. lia.
Qed.
Lemma padded_high n i : (i < n)%nat -> padded_index n (n + i) = if (2 * i <? n)%nat then None else Some i.
Proof.
  intros H. unfold padded_index. rewrite (Nat.mul_comm 2 n), Nat.div_mul by lia. replace (n + i + n)%nat with (i + 1 * (n * 2))%nat by lia. rewrite Nat.mod_add, Nat.mod_small by lia. pose proof (Nat.div_mod n 2 ltac:(lia)) as D. pose proof (Nat.mod_upper_bound n 2 ltac:(lia)).
  destruct (Nat.ltb_spec (2 * i) n), (Nat.leb_spec (n - n / 2) i), (Nat.ltb_spec i (n - n / 2 + n)); cbn [andb]; try lia; try reflexivity. f_equal. replace (i - (n - n / 2) + (n - n / 2))%nat with i by lia. apply Nat.mod_small. exact H.
Qed.
Lemma csum_padded n (H : nat -> C) l : (0 < n)%nat -> csum (2 * n) (fun i => match padded_index n i with Some b => cis (2 * PI * (INR l * INR i) / INR (2 * n)) * H b | None => RtoC 0 end) =
  csum n (fun b => cis (2 * PI * IZR (k_index n b) * (INR l / 2) / INR n) * H b).
Proof.
  intros N. pose proof (lt_0_INR n N) as P. replace (2 * n)%nat with (n + n)%nat at 1 by lia. rewrite csum_app, <- csum_plus. apply csum_ext. intros i Hi. rewrite padded_low, padded_high by exact Hi. unfold k_index. rewrite mult_INR. change (INR 2) with 2%R. destruct (2 * i <? n)%nat.
  - rewrite Cplus_0_r. f_equal. f_equal. rewrite <- INR_IZR_INZ. field. lra.
  - rewrite Cplus_0_l. f_equal. rewrite plus_INR, minus_IZR, <- !INR_IZR_INZ.
    replace (2 * PI * (INR l * (INR n + INR i)) / (2 * INR n))%R with (2 * PI * (INR i - INR n) * (INR l / 2) / INR n + 2 * PI * INR l)%R by (field; lra). rewrite cis_plus, cis_2PI_nat. ring.
Qed.
Lemma padded_sum s : forall X l, nonempty s -> length l = length s -> sum_over (twice s) (fun i => padded s X i * cis (phase (twice s) l i)) = sum_over s (fun q => X q * cis (angle s q (half_index l))).
Proof.
  induction s as [|n s IH]; intros X [|a l] S L; try discriminate; [reflexivity|]. injection L as L. inversion S; subst. cbn [twice map sum_over]. fold (twice s).
  rewrite (csum_ext _ _ (fun i => match padded_index n i with Some b => cis (2 * PI * (INR a * INR i) / INR (2 * n)) * sum_over s (fun q => X (b :: q) * cis (angle s q (half_index l))) | None => RtoC 0 end)).
  - rewrite csum_padded by assumption. apply csum_ext. intros b _. rewrite <- sum_over_scal. apply sum_over_ext. intros q _. cbn [half_index map angle]. fold (half_index l). rewrite cis_plus. ring.
  - intros i _. destruct (padded_index n i) as [b|] eqn:E.
    + rewrite <- (IH (fun q => X (b :: q)) l) by assumption. rewrite <- sum_over_scal. apply sum_over_ext. intros i' _. unfold padded. cbn [padded_indices phase]. rewrite E, cis_plus. destruct (padded_indices s i'); ring.
    + transitivity (sum_over (twice s) (fun _ => RtoC 0)); [|apply sum_over_zero]. apply sum_over_ext. intros i' _. unfold padded. cbn [padded_indices]. rewrite E. ring.
Qed.
Lemma points_twice s : (INR (points (twice s)) * halves (length s) = INR (points s))%R.
Proof. induction s as [|n s IH]; cbn [twice map points fold_right length halves]; [cbn; ring|]. fold (twice s). fold (points (twice s)). fold (points s). rewrite !mult_INR, <- IH. change (INR 2) with 2%R. field. Qed.
Lemma halves_pos d : (0 < halves d)%R.
Proof. induction d; cbn [halves]; lra. Qed.
Lemma coarse_val s X l : nonempty s -> length l = length s -> coarse s X l / RtoC (halves (length s)) = val s X (half_index l).
Proof.
  intros S L. unfold coarse, ift, val. rewrite padded_sum by assumption. rewrite <- (points_twice s). rewrite RtoC_mult.
  assert (RtoC (INR (points (twice s))) <> 0) as N by (apply points_neq_0; clear -S; induction S; constructor; [lia|assumption]).
  assert (RtoC (halves (length s)) <> 0) as N' by (intros H; apply RtoC_inj in H; pose proof (halves_pos (length s)); lra). field. split; assumption.
Qed.
Lemma coarse_place s : forall l, inside (twice s) l -> let t := map (fun x : nat * nat => let '(n, i) := x in (IZR ((Z.of_nat i + Z.of_nat n) mod (2 * Z.of_nat n) - Z.of_nat n) * (1 / 2))%R) (combine s l) in
  same_place s t (half_index l) /\ half_shift s t.
Proof.
  unfold half_shift. induction s as [|n s IH]; intros l Hl; inversion Hl as [|? i ? l' Hi Hl']; subst; [repeat split; constructor|]. destruct (IH l' Hl') as (P & LL & F). cbn [combine map same_place half_index] in *. split; [split; [|exact P]|].
  - exists (- ((Z.of_nat i + Z.of_nat n) / (2 * Z.of_nat n)))%Z. rewrite opp_IZR. pose proof (Z.div_mod (Z.of_nat i + Z.of_nat n) (2 * Z.of_nat n) ltac:(lia)) as D. apply (f_equal IZR) in D. rewrite !plus_IZR, !mult_IZR in D. rewrite minus_IZR, !INR_IZR_INZ in *. lra.
  - split; [cbn; f_equal; exact LL|]. constructor; [|exact F]. eexists. unfold Rdiv. rewrite Rmult_1_l. reflexivity.
Qed.
Lemma half_place s : forall t, nonempty s -> half_shift s t -> exists l, inside (twice s) l /\ same_place s t (half_index l).
Proof.
  induction s as [|n s IH]; intros t S [L I]; destruct t as [|d t]; try discriminate; [exists []; split; constructor|]. injection L as L. inversion I as [|? ? (z & ->) I']; subst. inversion S; subst. destruct (IH t) as (l & Hl & P); [assumption|split; assumption|].
  exists (Z.to_nat (z mod (2 * Z.of_nat n)) :: l). pose proof (Z.mod_pos_bound z (2 * Z.of_nat n) ltac:(lia)). split; [constructor; [lia|exact Hl]|]. cbn [same_place half_index map]. split; [|exact P].
  exists (z / (2 * Z.of_nat n))%Z. rewrite !INR_IZR_INZ, Z2Nat.id by lia. pose proof (Z.div_mod z (2 * Z.of_nat n) ltac:(lia)) as D. apply (f_equal IZR) in D. rewrite plus_IZR, !mult_IZR in D. lra.
Qed.
Lemma coarse_best s X : nonempty s -> exists t, coarse_location s X = (t, val s X t) /\ half_shift s t /\ forall t', half_shift s t' -> (Cmod (val s X t') <= Cmod (val s X t))%R.
Proof.
  intros S. assert (nonempty (twice s)) as S2 by (clear -S; induction S; constructor; [lia|assumption]). unfold coarse_location. destruct (argmax_spec (twice s) (fun p => Cmod (coarse s X p)) S2) as [I M]. set (l := argmax _ _) in *. clearbody l.
  destruct (coarse_place s l I) as [P F]. eexists. rewrite (val_place s X _ _ S P). pose proof (inside_length _ _ I) as L. unfold twice in L. rewrite map_length in L. rewrite coarse_val by assumption. split; [reflexivity|]. split; [exact F|].
  intros t' H. destruct (half_place s t' S H) as (p & Hp & P'). rewrite (val_place s X _ _ S P'). pose proof (inside_length _ _ Hp) as Lp. unfold twice in Lp. rewrite map_length in Lp. rewrite <- !coarse_val by assumption.
  pose proof (halves_pos (length s)) as HP. rewrite !Cmod_div by (intros E; apply RtoC_inj in E; lra). apply Rmult_le_compat_r; [left; apply Rinv_0_lt_compat; rewrite Cmod_R, Rabs_pos_eq; lra|]. apply M, Hp.
Qed.

(** ** Fractions of points *)
Definition zoomed_at (precision : R) (offset : list R) (l : list nat) : list R := map (fun x => let '(o, i) := x in ((o - INR i) * precision)%R) (combine offset l).
Lemma zoom_basis_cis s precision offset a l j : precision <> 0%R -> (0 < nth a s 0)%nat ->
  zoom_basis s precision offset a l j = cis (2 * PI * IZR (k_index (nth a s 0%nat) j) * ((nth a offset 0%R - INR l) * precision) / INR (nth a s 0%nat)).
Proof. intros P N. unfold zoom_basis, k_axis. f_equal. apply lt_0_INR in N. field. split; lra. Qed.
Lemma zoom_val s pixels precision offset X : (length s <= 2)%nat -> nonempty s -> length offset = length s -> precision <> 0%R ->
  exists z, zoom s pixels precision offset X = Ok (repeat pixels (length s), z) /\
    forall l, length l = length s -> z l / RtoC (INR (points s)) = val s X (zoomed_at precision offset l).
Proof.
  intros D S L P. destruct s as [|n [|m [|]]]; [| | |cbn in D; lia].
  - eexists. split; [reflexivity|]. intros [|]; [|discriminate]. intros _. destruct offset; [|discriminate]. unfold val. cbn. rewrite cis_0. unfold Cdiv. ring.
  - destruct offset as [|o [|]]; try discriminate. inversion S; subst. unfold zoom. cbn [length seq fold_left bind]. unfold zoom_axis. cbn [fst snd swap_first set_nth nth length Nat.sub]. rewrite Nat.eqb_refl. eexists. split; [reflexivity|].
    intros [|l [|]] E; try discriminate. cbn [swap_first set_nth nth]. unfold val. f_equal. cbn [sum_over]. apply csum_ext. intros j _. rewrite zoom_basis_cis by assumption. cbn [nth zoomed_at combine map angle]. rewrite Rplus_0_r. ring.
  - destruct offset as [|o [|o' [|]]]; try discriminate. inversion S as [|? ? N1 S']; inversion S' as [|? ? N2 _]; subst. unfold zoom. cbn [length seq fold_left bind]. unfold zoom_axis at 1. cbn [fst snd swap_first set_nth nth length Nat.sub]. rewrite Nat.eqb_refl. cbn [bind].
    unfold zoom_axis. cbn [fst snd swap_first set_nth nth length Nat.sub]. rewrite Nat.eqb_refl. eexists. split; [reflexivity|].
    intros [|l [|l' [|]]] E; try discriminate. cbn [swap_first set_nth nth]. unfold val. f_equal. cbn [sum_over].
    rewrite (csum_ext m _ (fun j => csum n (fun i => zoom_basis [n; m] precision [o; o'] 1 l' j * (zoom_basis [n; m] precision [o; o'] 0 l i * X [i; j])))) by (intros j _; rewrite csum_scal; reflexivity).
    rewrite csum_swap. apply csum_ext. intros i _. apply csum_ext. intros j _. rewrite !zoom_basis_cis by assumption. cbn [nth zoomed_at combine map angle]. rewrite Rplus_0_r, cis_plus. ring.
Qed.
(** The pixels around the start, at multiples of the precision. *)
Definition window (precision : R) (start : list R) (l : list nat) : list R :=
  map (fun x => let '(d, i) := x in (rounded precision d + (- INR i + IZR (Zfloor (IZR (Zceil (3 / 2 / precision)) / 2))) * precision)%R) (combine start l).
Lemma refine_best s X precision start : (length s <= 2)%nat -> nonempty s -> length start = length s -> (0 < precision)%R ->
  let pixels := Nat.max 1 (Z.to_nat (Zceil (3 / 2 / precision))) in
  exists l, inside (repeat pixels (length s)) l /\ refine s X precision start = Ok (window precision start l, val s X (window precision start l)) /\
    forall l', inside (repeat pixels (length s)) l' -> (Cmod (val s X (window precision start l')) <= Cmod (val s X (window precision start l)))%R.
Proof.
  intros D S L P pixels. unfold refine. fold pixels. set (dft := IZR (Zfloor _)). assert (nonempty (repeat pixels (length s))) as S2 by (apply Forall_forall; intros x Hx; apply repeat_spec in Hx; unfold pixels in Hx; lia).
  destruct (zoom_val s pixels precision (map (fun x => (dft + x / precision)%R) (map (rounded precision) start)) X) as (z & -> & V); [exact D|exact S|rewrite !map_length; exact L|lra|]. cbn [bind fst snd].
  assert (forall l, length l = length s -> z l / RtoC (INR (points s)) = val s X (window precision start l)) as W.
  { intros l Hl. rewrite V by exact Hl. f_equal. unfold zoomed_at, window. fold dft. clear -P. revert start. induction l as [|i l IH]; intros [|d start]; cbn [map combine]; try reflexivity. f_equal; [field; lra|apply IH]. }
  destruct (argmax_spec (repeat pixels (length s)) (fun p => Cmod (z p / RtoC (INR (points s)))) S2) as [I M]. set (l := argmax _ _) in *. clearbody l. exists l.
  pose proof (inside_length _ _ I) as Ll. rewrite repeat_length in Ll. split; [exact I|]. split.
  - rewrite W by exact Ll. f_equal. f_equal. unfold window. fold dft. clear. revert start. induction l as [|i l IH]; intros [|d start]; cbn [map combine]; try reflexivity. f_equal. apply IH.
  - intros l' I'. pose proof (inside_length _ _ I') as Ll'. rewrite repeat_length in Ll'. rewrite <- !W by assumption. apply M, I'.
Qed.
(** Half points are found when the precision is the inverse of an even number. *)
Lemma rounded_half precision m z : (0 < m)%Z -> precision = (/ IZR (2 * m))%R -> rounded precision (IZR z / 2) = (IZR z / 2)%R.
Proof.
  intros M ->. unfold rounded. assert (0 < IZR m)%R as P by (apply IZR_lt; exact M). replace (IZR z / 2 / / IZR (2 * m))%R with (IZR (z * m)) by (rewrite !mult_IZR; field; lra).
  replace (ZnearestE (IZR (z * m))) with (z * m)%Z by (symmetry; apply Znearest_imp; rewrite Rminus_eq_0, Rabs_R0; lra). rewrite !mult_IZR. field. lra.
Qed.
Lemma window_start s precision m start : (0 < m)%Z -> precision = (/ IZR (2 * m))%R -> half_shift s start ->
  exists l, inside (repeat (Nat.max 1 (Z.to_nat (Zceil (3 / 2 / precision)))) (length s)) l /\ window precision start l = start.
Proof.
  intros M P [L H]. assert (0 < IZR m)%R as Pm by (apply IZR_lt; exact M). assert (Zceil (3 / 2 / precision) = 3 * m)%Z as C. { rewrite P. replace (3 / 2 / / IZR (2 * m))%R with (IZR (3 * m)) by (rewrite !mult_IZR; field; lra). apply Zceil_IZR. }
  set (c := Zfloor (IZR (3 * m) / 2)). assert (0 <= c < 3 * m)%Z as B.
  { unfold c. split; [apply Zfloor_lub; rewrite mult_IZR; lra|]. apply lt_IZR. eapply Rle_lt_trans; [apply Zfloor_lb|]. rewrite mult_IZR. lra. }
  rewrite C. exists (repeat (Z.to_nat c) (length s)). split.
  - clear L. induction (length s) as [|d IH]; cbn [repeat]; [constructor|constructor; [lia|exact IH]].
  - unfold window. rewrite C. fold c. rewrite <- L. clear L. induction H as [|d start (z & ->) H IH]; [reflexivity|]. cbn [length repeat combine map]. rewrite IH. f_equal. rewrite (rounded_half precision m z M P). rewrite INR_IZR_INZ, Z2Nat.id by lia. ring.
Qed.
Lemma locate_fine s X precision m : (length s <= 2)%nat -> nonempty s -> (1 < m)%Z -> precision = (/ IZR (2 * m))%R -> whole precision = false ->
  exists t, locate s X precision = Ok (t, val s X t) /\ length t = length s /\ Forall (fun d => exists z, d = (IZR z * precision)%R) t /\
    forall t', half_shift s t' -> (Cmod (val s X t') <= Cmod (val s X t))%R.
Proof.
  intros D S M P W. assert (0 < IZR m)%R as Pm by (apply IZR_lt; lia). assert (1 < IZR m)%R as Pm1 by (apply (IZR_lt 1); lia). unfold locate. rewrite W. destruct (coarse_best s X S) as (start & -> & H & B).
  assert (0 < precision < 1 / 2)%R as [P0 P1]. { rewrite P, mult_IZR. split; [apply Rinv_0_lt_compat; lra|]. replace (1 / 2)%R with (/ 2)%R by field. apply Rinv_lt_contravar; lra. }
  unfold Rltb. destruct (Rlt_dec precision (1 / 2)) as [_|N]; [|lra]. destruct (refine_best s X precision start D S (proj1 H) P0) as (l & I & -> & R). pose proof (inside_length _ _ I) as Ll. rewrite repeat_length in Ll.
  eexists. split; [reflexivity|]. split; [unfold window; rewrite map_length, combine_length, Ll, (proj1 H), Nat.min_id; reflexivity|]. split.
  - unfold window. apply Forall_forall. intros x Hx. apply in_map_iff in Hx as ((d & i) & <- & _). unfold rounded. exists (ZnearestE (d / precision) + (- Z.of_nat i + Zfloor (IZR (Zceil (3 / 2 / precision)) / 2)))%Z. rewrite plus_IZR, plus_IZR, opp_IZR, <- INR_IZR_INZ. ring.
  - intros t' Ht. destruct (window_start s precision m start ltac:(lia) P H) as (l0 & I0 & E). eapply Rle_trans; [apply B, Ht|]. rewrite <- E at 1. apply R, I0.
Qed.
Lemma whole_fraction x : (0 < x <= 1 / 2)%R -> (/ 100000000 < x)%R -> whole x = false.
Proof.
  intros B H. unfold whole. apply near_zero_false. pose proof (Znearest_half (fun z => negb (Z.even z)) x) as N.
  assert (ZnearestE x = 0 \/ ZnearestE x = 1)%Z as [E|E].
  { pose proof (Zfloor_lb x). assert (Zfloor x = 0)%Z as F by (apply Zfloor_imp; cbn; lra). destruct (Znearest_DN_or_UP (fun z => negb (Z.even z)) x) as [E|E]; rewrite E; [left; exact F|right]. apply Zceil_imp. cbn. lra. }
  - rewrite E. rewrite Rminus_0_r, Rabs_pos_eq; lra.
  - rewrite E. rewrite Rabs_left1; lra.
Qed.
