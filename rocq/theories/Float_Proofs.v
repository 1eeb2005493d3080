(** Sampling points in double precision. *)
From Coq Require Import ZArith Reals Lia Lra Psatz List.
From Flocq Require Import Core.Core IEEE754.BinarySingleNaN.
From Verif Require Import Base Num Grid_Model Grid_Proofs Float_Model Float_Spec Float_Basics.
Local Open Scope R_scope.

Definition shifted (g : grid BN) (i : nat) : bool := negb (center_at_index BN g i) && Z.even (shape BN g i).
Definition half_step (g : grid BN) (i : nat) : R := rnd (val (spacing g i) / 2).

(** Value of a coordinate by its rounded operations. *)
Definition base (g : grid BN) (i : nat) (k : Z) : R := rnd (rnd (IZR k * val (spacing g i)) + val (middle g i)).
Definition rounded (g : grid BN) (i : nat) (k : Z) : R :=
  if shifted g i then rnd (base g i k + half_step g i) else base g i k.

Lemma two_ne : val (nofZ BN 2) <> 0.
Proof. rewrite ofZ_eq by lia. lra. Qed.
Lemma half_val x : finite x -> finite (ndiv BN x (nofZ BN 2)) /\ val (ndiv BN x (nofZ BN 2)) = rnd (val x / 2).
Proof.
  intros F. assert (finite (ndiv BN x (nofZ BN 2))) as G.
  - apply div_fin; [exact F|apply two_ne|]. rewrite ofZ_eq by lia.
    apply Rle_lt_trans with (Rabs (val x)); [|apply val_bound].
    rewrite <- (rnd_fmt (val x) (fmt_val x)) at 2.
    destruct (Rle_or_lt 0 (val x)) as [P|P].
    + rewrite !Rabs_pos_eq; [apply rnd_le; lra| |]; rewrite <- rnd_0; apply rnd_le; lra.
    + rewrite !Rabs_left1; [apply Ropp_le_contravar, rnd_le; lra| |]; rewrite <- rnd_0; apply rnd_le; lra.
  - split; [exact G|]. destruct (div_val x _ two_ne G) as [_ V]. rewrite V, ofZ_eq by lia. reflexivity.
Qed.

Lemma half_bound (z n : Z) : (1 <= n <= 2 ^ 53)%Z -> (0 <= z < n)%Z -> (Z.abs (z - n / 2) <= 2 ^ 53)%Z.
Proof. intros H L. pose proof (Z.div_pos n 2). pose proof (Z.div_le_upper_bound n 2 n). lia. Qed.

Lemma raw_val g i j : sized g i -> (Z.of_nat j < shape BN g i)%Z -> finite (raw_coordinate BN g i j) ->
  val (raw_coordinate BN g i j) = rounded g i (Z.of_nat j - shape BN g i / 2).
Proof.
  intros S L. unfold sized in S. pose proof (half_bound (Z.of_nat j) _ S ltac:(lia)) as B.
  unfold raw_coordinate, rounded, shifted. fold (spacing g i) (middle g i).
  set (k := (Z.of_nat j - shape BN g i / 2)%Z) in *. set (n := shape BN g i) in *.
  assert (forall x, finite x -> x = nadd BN (if (1 <? n)%Z then nmul BN (nofZ BN k) (spacing g i) else nofZ BN k) (middle g i) ->
          val x = base g i k) as K.
  { intros x F ->. destruct (add_val _ _ F) as (F1 & F2 & V). rewrite V. unfold base. f_equal. f_equal.
    destruct (Z.ltb_spec 1 n).
    - destruct (mul_val _ _ F1) as (_ & _ & V1). rewrite V1, ofZ_eq by exact B. reflexivity.
    - rewrite ofZ_eq by exact B. assert (n = 1)%Z as E by lia.
      assert (k = 0)%Z as -> by (unfold k; fold n in L; rewrite E in *; change (1 / 2)%Z with 0%Z; lia). rewrite Rmult_0_l, rnd_0. reflexivity. }
  destruct (negb (center_at_index BN g i) && Z.even n).
  - intros F. destruct (add_val _ _ F) as (F1 & F2 & V). rewrite V. unfold half_step.
    rewrite (K _ F1 eq_refl). f_equal. f_equal.
    assert (finite (spacing g i)) as Fs by (apply (div_val _ _ two_ne F2)).
    apply (proj2 (half_val _ Fs)).
  - intros F. apply K; auto.
Qed.

(** A coordinate is finite when its rounded value is in range. *)
Lemma raw_fin g i j : sized g i -> (Z.of_nat j < shape BN g i)%Z -> finite (spacing g i) -> finite (middle g i) ->
  Rabs (rnd (IZR (Z.of_nat j - shape BN g i / 2) * val (spacing g i))) < bpow radix2 1024 ->
  Rabs (base g i (Z.of_nat j - shape BN g i / 2)) < bpow radix2 1024 ->
  Rabs (rounded g i (Z.of_nat j - shape BN g i / 2)) < bpow radix2 1024 ->
  finite (raw_coordinate BN g i j).
Proof.
  intros S L Fs Fc. unfold sized in S. pose proof (half_bound (Z.of_nat j) _ S ltac:(lia)) as B.
  unfold raw_coordinate, rounded, shifted. fold (spacing g i) (middle g i).
  set (k := (Z.of_nat j - shape BN g i / 2)%Z) in *. set (n := shape BN g i) in *.
  intros H1 H2 H3. set (t := if (1 <? n)%Z then nmul BN (nofZ BN k) (spacing g i) else nofZ BN k).
  assert (finite t /\ val t = rnd (IZR k * val (spacing g i))) as [Ft Vt].
  { unfold t. destruct (Z.ltb_spec 1 n).
    - assert (finite (nmul BN (nofZ BN k) (spacing g i))) as G.
      { apply mul_fin; auto. apply ofZ_fin; exact B. rewrite ofZ_eq by exact B. exact H1. }
      split; [exact G|]. destruct (mul_val _ _ G) as (_ & _ & V1). rewrite V1, ofZ_eq by exact B. reflexivity.
    - split; [apply ofZ_fin; exact B|]. rewrite ofZ_eq by exact B. assert (n = 1)%Z as E by lia.
      assert (k = 0)%Z as -> by (unfold k; fold n in L; rewrite E in *; change (1 / 2)%Z with 0%Z; lia).
      rewrite Rmult_0_l, rnd_0. reflexivity. }
  assert (finite (nadd BN t (middle g i))) as Fb.
  { apply add_fin; auto. rewrite Vt. exact H2. }
  destruct (negb (center_at_index BN g i) && Z.even n); [|exact Fb].
  destruct (half_val _ Fs) as [Fh Vh].
  apply add_fin; auto. destruct (add_val _ _ Fb) as (_ & _ & V). rewrite V, Vt, Vh. exact H3.
Qed.

Lemma coordinate_natural g i j : natural_order g i -> (Z.of_nat j < shape BN g i)%Z ->
  coordinate g i j = raw_coordinate BN g i j.
Proof.
  intros O L. unfold coordinate, axis_range. unfold natural_order in O. rewrite O.
  rewrite (nth_indep _ _ (raw_coordinate BN g i 0%nat)) by (rewrite map_length, seq_length; lia).
  rewrite map_nth, seq_nth by lia. reflexivity.
Qed.
Lemma coordinate_fft g i j : fft_order g i -> (Z.of_nat j < shape BN g i)%Z ->
  coordinate g i j = raw_coordinate BN g i ((j + Z.to_nat (shape BN g i) / 2) mod Z.to_nat (shape BN g i)).
Proof.
  intros O L. unfold coordinate, axis_range. unfold fft_order in O. rewrite O.
  set (n := Z.to_nat (shape BN g i)).
  rewrite ifftshift_nth by (rewrite map_length, seq_length; unfold n; lia).
  rewrite map_length, seq_length.
  assert ((j + n / 2) mod n < n)%nat by (apply Nat.mod_upper_bound; unfold n; lia).
  rewrite (nth_indep _ _ (raw_coordinate BN g i 0%nat)) by (rewrite map_length, seq_length; assumption).
  rewrite map_nth, seq_nth by assumption. reflexivity.
Qed.

Lemma rounded_le g i k l : 0 <= val (spacing g i) -> (k <= l)%Z -> rounded g i k <= rounded g i l.
Proof.
  intros P L. assert (base g i k <= base g i l) as H.
  { unfold base. apply rnd_le, Rplus_le_compat_r, rnd_le, Rmult_le_compat_r; [exact P|]. apply IZR_le. exact L. }
  unfold rounded. destruct (shifted g i); [|exact H]. apply rnd_le. lra.
Qed.
Lemma rounded_ge g i k l : val (spacing g i) <= 0 -> (k <= l)%Z -> rounded g i l <= rounded g i k.
Proof.
  intros P L. assert (base g i l <= base g i k) as H.
  { unfold base. apply rnd_le, Rplus_le_compat_r, rnd_le. apply IZR_le in L. nra. }
  unfold rounded. destruct (shifted g i); [|exact H]. apply rnd_le. lra.
Qed.

Lemma points_ordered g i j l : sized g i -> natural_order g i -> (j <= l)%nat -> (Z.of_nat l < shape BN g i)%Z ->
  finite (coordinate g i j) -> finite (coordinate g i l) ->
  (0 <= val (spacing g i) -> val (coordinate g i j) <= val (coordinate g i l)) /\
  (val (spacing g i) <= 0 -> val (coordinate g i l) <= val (coordinate g i j)).
Proof.
  intros S O L1 L2. rewrite !coordinate_natural by (auto; lia). intros F1 F2.
  rewrite !raw_val by (auto; lia). split; intros P; [apply rounded_le|apply rounded_ge]; auto; lia.
Qed.

Lemma not_shifted g i : center_is_point g i -> shifted g i = false.
Proof.
  unfold center_is_point, shifted. rewrite <- Z.negb_odd. intros [-> | ->]; cbn; [reflexivity|].
  apply Bool.andb_false_r.
Qed.

Lemma base_0 g i : base g i 0 = val (middle g i).
Proof. unfold base. rewrite Rmult_0_l, rnd_0, Rplus_0_l. apply rnd_fmt, fmt_val. Qed.

Lemma big_pos : 0 < bpow radix2 1024.
Proof. apply bpow_gt_0. Qed.

Lemma raw_center g i : sized g i -> center_is_point g i -> finite (spacing g i) -> finite (middle g i) ->
  finite (raw_coordinate BN g i (Z.to_nat (shape BN g i / 2))) /\
  val (raw_coordinate BN g i (Z.to_nat (shape BN g i / 2))) = val (middle g i).
Proof.
  intros S P Fs Fc. pose proof S as S'. unfold sized in S'.
  assert (0 <= shape BN g i / 2 < shape BN g i)%Z as Q by (split; [apply Z.div_pos|apply Z.div_lt_upper_bound]; lia).
  assert (finite (raw_coordinate BN g i (Z.to_nat (shape BN g i / 2)))) as F.
  { apply raw_fin; auto; try lia; rewrite Z2Nat.id by lia; rewrite Z.sub_diag.
    - rewrite Rmult_0_l, rnd_0, Rabs_R0. apply big_pos.
    - rewrite base_0. apply val_bound.
    - unfold rounded. rewrite not_shifted, base_0 by exact P. apply val_bound. }
  split; [exact F|]. rewrite raw_val by (auto; lia). rewrite Z2Nat.id by lia. rewrite Z.sub_diag.
  unfold rounded. rewrite not_shifted, base_0 by exact P. reflexivity.
Qed.

Lemma center_exact g i : sized g i -> natural_order g i -> center_is_point g i ->
  finite (spacing g i) -> finite (middle g i) ->
  finite (coordinate g i (Z.to_nat (shape BN g i / 2))) /\
  val (coordinate g i (Z.to_nat (shape BN g i / 2))) = val (middle g i).
Proof.
  intros S O P Fs Fc. rewrite coordinate_natural; [apply raw_center; auto|exact O|].
  unfold sized in S. assert (shape BN g i / 2 < shape BN g i)%Z by (apply Z.div_lt_upper_bound; lia).
  assert (0 <= shape BN g i / 2)%Z by (apply Z.div_pos; lia). lia.
Qed.
Lemma fft_origin g i : sized g i -> fft_order g i -> center_is_point g i ->
  finite (spacing g i) -> finite (middle g i) ->
  finite (coordinate g i 0) /\ val (coordinate g i 0) = val (middle g i).
Proof.
  intros S O P Fs Fc. pose proof S as S'. unfold sized in S'.
  rewrite coordinate_fft by (auto; lia).
  assert ((0 + Z.to_nat (shape BN g i) / 2) mod Z.to_nat (shape BN g i) = Z.to_nat (shape BN g i / 2))%nat as ->.
  { cbn [plus]. rewrite Nat.mod_small.
    - change 2%nat with (Z.to_nat 2). rewrite <- Z2Nat.inj_div by lia. reflexivity.
    - apply Nat.div_lt; lia. }
  apply raw_center; auto.
Qed.

(** Symmetry about a centre at zero. *)
Lemma points_symmetric g i k : sized g i -> natural_order g i -> center_is_point g i -> val (middle g i) = 0 ->
  finite (middle g i) -> finite (spacing g i) ->
  let h := Z.to_nat (shape BN g i / 2) in
  (k <= h)%nat -> (Z.of_nat (h + k) < shape BN g i)%Z -> finite (coordinate g i (h + k)) ->
  finite (coordinate g i (h - k)) /\ val (coordinate g i (h - k)) = - val (coordinate g i (h + k)).
Proof.
  intros S O P Z0 Fc Fs h K L. pose proof S as S'. unfold sized in S'.
  assert (0 <= shape BN g i / 2 < shape BN g i)%Z as Q by (split; [apply Z.div_pos|apply Z.div_lt_upper_bound]; lia).
  rewrite !coordinate_natural by (auto; lia). intros F.
  pose proof (raw_val g i (h + k) S L F) as V.
  assert (Z.of_nat (h + k) - shape BN g i / 2 = Z.of_nat k)%Z as E1 by lia.
  assert (Z.of_nat (h - k) - shape BN g i / 2 = - Z.of_nat k)%Z as E2 by lia.
  rewrite E1 in V.
  assert (base g i (- Z.of_nat k) = - base g i (Z.of_nat k)) as B.
  { unfold base. rewrite Z0, !Rplus_0_r. rewrite opp_IZR.
    replace (- IZR (Z.of_nat k) * val (spacing g i)) with (- (IZR (Z.of_nat k) * val (spacing g i))) by ring.
    rewrite !rnd_opp. reflexivity. }
  assert (base g i (Z.of_nat k) = rnd (IZR (Z.of_nat k) * val (spacing g i))) as B2.
  { unfold base. rewrite Z0, Rplus_0_r. apply rnd_fmt, fmt_rnd. }
  unfold rounded in V. rewrite not_shifted in V by exact P.
  assert (finite (raw_coordinate BN g i (h - k))) as F2.
  { apply raw_fin; auto; try lia; rewrite E2.
    - rewrite opp_IZR. replace (- IZR (Z.of_nat k) * val (spacing g i)) with (- (IZR (Z.of_nat k) * val (spacing g i))) by ring.
      rewrite rnd_opp, Rabs_Ropp, <- B2, <- V. apply val_bound.
    - rewrite B, Rabs_Ropp, <- V. apply val_bound.
    - unfold rounded. rewrite not_shifted by exact P. rewrite B, Rabs_Ropp, <- V. apply val_bound. }
  split; [exact F2|]. rewrite raw_val by (auto; lia). rewrite E2, V. unfold rounded. rewrite not_shifted by exact P.
  exact B.
Qed.

(** The [first] property is the first point. *)
Lemma first_is_point g i : sized g i -> natural_order g i -> finite (first BN g i) ->
  finite (coordinate g i 0) /\ val (first BN g i) = val (coordinate g i 0).
Proof.
  intros S O F. pose proof S as S'. unfold sized in S'.
  assert (0 <= shape BN g i / 2 < shape BN g i)%Z as Q by (split; [apply Z.div_pos|apply Z.div_lt_upper_bound]; lia).
  rewrite coordinate_natural by (auto; lia).
  assert (Z.abs (shape BN g i / 2) <= 2 ^ 53)%Z as HB by lia.
  assert (Z.of_nat 0 - shape BN g i / 2 = - (shape BN g i / 2))%Z as E0 by lia.
  unfold first in F |- *. fold (spacing g i) (middle g i) in F |- *.
  set (r := nsub BN (middle g i) (nmul BN (spacing g i) (nofZ BN (shape BN g i / 2)))) in *.
  assert (finite r -> finite (spacing g i) /\ finite (middle g i) /\
          Rabs (rnd (IZR (- (shape BN g i / 2)) * val (spacing g i))) < bpow radix2 1024 /\
          val r = base g i (- (shape BN g i / 2))) as K.
  { intros Fr. destruct (sub_val _ _ Fr) as (Fm & Fp & V). destruct (mul_val _ _ Fp) as (Fs & _ & V2).
    rewrite ofZ_eq in V2 by exact HB.
    assert (rnd (IZR (- (shape BN g i / 2)) * val (spacing g i)) = - val (nmul BN (spacing g i) (nofZ BN (shape BN g i / 2)))) as E.
    { rewrite V2, <- rnd_opp. f_equal. rewrite opp_IZR. ring. }
    split; [exact Fs|]. split; [exact Fm|]. split; [rewrite E, Rabs_Ropp; apply val_bound|].
    fold r in V. rewrite V. unfold base. rewrite E. f_equal. ring. }
  destruct (negb (center_at_index BN g i) && Z.even (shape BN g i)) eqn:Sh.
  - destruct (add_val _ _ F) as (Fr & Fh & V). destruct (K Fr) as (Fs & Fm & B1 & V1).
    destruct (half_val _ Fs) as [_ Vh].
    assert (val (nadd BN r (ndiv BN (spacing g i) (nofZ BN 2))) = rounded g i (- (shape BN g i / 2))) as E.
    { rewrite V, V1, Vh. unfold rounded, shifted. rewrite Sh. reflexivity. }
    assert (finite (raw_coordinate BN g i 0)) as F2.
    { apply raw_fin; auto; try lia; rewrite E0; auto.
      - rewrite <- V1. apply val_bound.
      - rewrite <- E. apply val_bound. }
    split; [exact F2|]. rewrite raw_val by (auto; lia). rewrite E0. exact E.
  - destruct (K F) as (Fs & Fm & B1 & V1).
    assert (finite (raw_coordinate BN g i 0)) as F2.
    { apply raw_fin; auto; try lia; rewrite E0; auto.
      - rewrite <- V1. apply val_bound.
      - unfold rounded, shifted. rewrite Sh, <- V1. apply val_bound. }
    split; [exact F2|]. rewrite raw_val by (auto; lia). rewrite E0. unfold rounded, shifted. rewrite Sh. exact V1.
Qed.
