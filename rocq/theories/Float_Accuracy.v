(** Accuracy of the sampling points in double precision. *)
From Coq Require Import ZArith Reals Lia Lra Psatz List.
From Flocq Require Import Core.Core IEEE754.BinarySingleNaN.
From Verif Require Import Base Num Grid_Model Grid_Proofs Float_Model Float_Spec Float_Basics Float_Proofs.
Local Open Scope R_scope.

Local Notation u := unit_roundoff.
Local Notation eta := smallest.

Lemma base_error g i k M : Rabs (val (middle g i)) + Rabs (IZR k * val (spacing g i)) <= M ->
  Rabs (base g i k - (val (middle g i) + IZR k * val (spacing g i))) <= 3 * u * M + eta.
Proof.
  intros HM. unfold base. set (s := IZR k * val (spacing g i)) in *. set (c := val (middle g i)) in *.
  pose proof (rnd_error s) as E1. pose proof (rnd_error_add (rnd s) c (fmt_rnd s) (fmt_val _)) as E2.
  pose proof u_pos. pose proof u_small. pose proof smallest_pos.
  replace (rnd (rnd s + c) - (c + s)) with ((rnd (rnd s + c) - (rnd s + c)) + (rnd s - s)) by ring.
  eapply Rle_trans; [apply Rabs_triang|].
  assert (Rabs (rnd s + c) <= Rabs c + Rabs s + Rabs (rnd s - s)) as E3.
  { replace (rnd s + c) with (c + (s + (rnd s - s))) by ring. eapply Rle_trans; [apply Rabs_triang|].
    rewrite Rplus_assoc. apply Rplus_le_compat_l, Rabs_triang. }
  assert (u * Rabs (rnd s + c) <= u * (Rabs c + Rabs s + Rabs (rnd s - s))) as E4 by (apply Rmult_le_compat_l; lra).
  pose proof (Rabs_pos s). pose proof (Rabs_pos c).
  assert (Rabs (rnd s - s) <= u * M + / 2 * eta) as E5.
  { eapply Rle_trans; [exact E1|]. apply Rplus_le_compat_r, Rmult_le_compat_l; lra. }
  assert (u * (Rabs c + Rabs s + Rabs (rnd s - s)) <= u * (M + (u * M + / 2 * eta))) as E6 by (apply Rmult_le_compat_l; lra).
  assert (u * (u * M) <= / 1024 * (u * M)) as E7 by (apply Rmult_le_compat_r; [apply Rmult_le_pos|]; lra).
  assert (u * eta <= / 1024 * eta) as E8 by (apply Rmult_le_compat_r; lra).
  assert (0 <= u * M) by (apply Rmult_le_pos; lra). lra.
Qed.

Lemma index_magnitude g i j : sized g i -> (Z.of_nat j < shape BN g i)%Z ->
  Rabs (IZR (Z.of_nat j - shape BN g i / 2) * val (spacing g i)) <= IZR (shape BN g i) * Rabs (val (spacing g i)).
Proof.
  intros S L. unfold sized in S. rewrite Rabs_mult. apply Rmult_le_compat_r; [apply Rabs_pos|].
  rewrite <- abs_IZR. apply IZR_le.
  pose proof (Z.div_pos (shape BN g i) 2). pose proof (Z.div_le_upper_bound (shape BN g i) 2 (shape BN g i)). lia.
Qed.

Lemma even_half (n : Z) : Z.even n = true -> IZR n = 2 * IZR (n / 2).
Proof.
  intros E. rewrite <- mult_IZR. f_equal. apply Z.even_spec in E. destruct E as [m ->].
  rewrite (Z.mul_comm 2 m), Z.div_mul by lia. lia.
Qed.
Lemma odd_half (n : Z) : Z.even n = false -> IZR (n - 1) / 2 = IZR (n / 2).
Proof.
  intros E. rewrite <- Z.negb_odd in E. apply Bool.negb_false_iff, Z.odd_spec in E. destruct E as [m ->].
  replace (2 * m + 1 - 1)%Z with (2 * m)%Z by lia.
  replace ((2 * m + 1) / 2)%Z with m by (rewrite (Z.mul_comm 2 m), Z.div_add_l by lia; cbn; lia).
  rewrite mult_IZR. field.
Qed.

Lemma rounded_error g i j : sized g i -> (Z.of_nat j < shape BN g i)%Z ->
  Rabs (rounded g i (Z.of_nat j - shape BN g i / 2) - position g i j) <= 8 * u * magnitude g i + 2 * eta.
Proof.
  intros S L. pose proof S as S'. unfold sized in S'.
  set (k := (Z.of_nat j - shape BN g i / 2)%Z). set (M := magnitude g i).
  pose proof (index_magnitude g i j S L) as H. fold k in H.
  assert (Rabs (val (middle g i)) + Rabs (IZR k * val (spacing g i)) <= M) as HM by (unfold M, magnitude; lra).
  pose proof (base_error g i k M HM) as B.
  pose proof u_pos. pose proof u_small. pose proof smallest_pos.
  assert (0 <= M) as M0 by (pose proof (Rabs_pos (val (middle g i))); pose proof (Rabs_pos (IZR k * val (spacing g i))); lra).
  assert (0 <= u * M) as uM by (apply Rmult_le_pos; lra).
  unfold rounded, shifted. destruct (negb (center_at_index BN g i) && Z.even (shape BN g i)) eqn:Sh.
  - apply andb_prop in Sh. destruct Sh as [C E]. apply Bool.negb_true_iff in C.
    assert (position g i j = val (middle g i) + IZR k * val (spacing g i) + val (spacing g i) / 2) as ->.
    { unfold position. rewrite C. unfold k. rewrite INR_IZR_INZ, !minus_IZR, (even_half _ E). field. }
    set (p := val (middle g i) + IZR k * val (spacing g i)) in *. set (s := val (spacing g i)) in *.
    assert (2 <= shape BN g i)%Z as N2 by (destruct (Z.eq_dec (shape BN g i) 1) as [Q|Q]; [rewrite Q in E; discriminate|lia]).
    assert (Rabs s <= M) as sM.
    { unfold M, magnitude. fold s. pose proof (Rabs_pos s). pose proof (Rabs_pos (val (middle g i))).
      apply IZR_le in N2. assert (2 * Rabs s <= IZR (shape BN g i) * Rabs s) by (apply Rmult_le_compat_r; lra). lra. }
    pose proof (rnd_error (s / 2)) as Eh. fold (half_step g i) in Eh.
    change (rnd (s / 2)) with (half_step g i) in Eh.
    pose proof (rnd_error_add (base g i k) (half_step g i) (fmt_rnd _) (fmt_rnd _)) as E2.
    assert (Rabs (s / 2) <= / 2 * M) as sM2.
    { unfold Rdiv. rewrite Rabs_mult, (Rabs_pos_eq (/ 2)) by lra. lra. }
    assert (u * Rabs (s / 2) <= u * (/ 2 * M)) as E3 by (apply Rmult_le_compat_l; lra).
    assert (Rabs p <= M) as pM by (unfold p; eapply Rle_trans; [apply Rabs_triang|]; exact HM).
    replace (rnd (base g i k + half_step g i) - (p + s / 2))
      with ((rnd (base g i k + half_step g i) - (base g i k + half_step g i)) + ((base g i k - p) + (half_step g i - s / 2))) by ring.
    eapply Rle_trans; [apply Rabs_triang|].
    assert (Rabs ((base g i k - p) + (half_step g i - s / 2)) <= 3 * u * M + eta + (u * (/ 2 * M) + / 2 * eta)) as E4.
    { eapply Rle_trans; [apply Rabs_triang|]. lra. }
    assert (Rabs (base g i k + half_step g i) <= M + / 2 * M + (3 * u * M + eta + (u * (/ 2 * M) + / 2 * eta))) as E5.
    { replace (base g i k + half_step g i) with (p + (s / 2 + ((base g i k - p) + (half_step g i - s / 2)))) by ring.
      eapply Rle_trans; [apply Rabs_triang|]. rewrite Rplus_assoc. apply Rplus_le_compat; [exact pM|].
      eapply Rle_trans; [apply Rabs_triang|]. apply Rplus_le_compat; assumption. }
    assert (u * Rabs (base g i k + half_step g i) <= u * (M + / 2 * M + (3 * u * M + eta + (u * (/ 2 * M) + / 2 * eta)))) as E6
      by (apply Rmult_le_compat_l; lra).
    assert (u * (u * M) <= / 1024 * (u * M)) as E7 by (apply Rmult_le_compat_r; lra).
    assert (u * eta <= / 1024 * eta) as E8 by (apply Rmult_le_compat_r; lra). lra.
  - assert (position g i j = val (middle g i) + IZR k * val (spacing g i)) as ->.
    { unfold position. f_equal. f_equal. unfold k. rewrite (minus_IZR (Z.of_nat j)), <- INR_IZR_INZ. f_equal.
      destruct (center_at_index BN g i); [reflexivity|]. cbn in Sh. apply odd_half. exact Sh. }
    lra.
Qed.

Lemma coordinate_accurate g i j : sized g i -> natural_order g i -> (Z.of_nat j < shape BN g i)%Z ->
  finite (coordinate g i j) ->
  Rabs (val (coordinate g i j) - position g i j) <= 8 * u * magnitude g i + 2 * eta.
Proof.
  intros S O L. rewrite coordinate_natural by auto. intros F. rewrite raw_val by auto. apply rounded_error; auto.
Qed.

Lemma position_next g i j l : position g i l - position g i j = (INR l - INR j) * val (spacing g i).
Proof. unfold position. ring. Qed.

Lemma coordinates_distinct g i j l : sized g i -> natural_order g i -> (j < l)%nat -> (Z.of_nat l < shape BN g i)%Z ->
  finite (coordinate g i j) -> finite (coordinate g i l) ->
  16 * u * magnitude g i + 4 * eta < val (spacing g i) ->
  val (coordinate g i j) < val (coordinate g i l).
Proof.
  intros S O J L F1 F2 H.
  pose proof (coordinate_accurate g i j S O ltac:(lia) F1) as A1.
  pose proof (coordinate_accurate g i l S O L F2) as A2.
  apply Rabs_le_inv in A1. apply Rabs_le_inv in A2. pose proof (position_next g i j l) as E.
  assert (1 <= INR l - INR j) as D.
  { rewrite <- minus_INR by lia. change 1 with (INR 1). apply le_INR. lia. }
  pose proof smallest_pos. pose proof u_pos.
  assert (0 <= magnitude g i) as M0.
  { unfold magnitude. pose proof (Rabs_pos (val (middle g i))). pose proof (Rabs_pos (val (spacing g i))).
    unfold sized in S. assert (0 <= IZR (shape BN g i)) by (apply IZR_le; lia). nra. }
  assert (0 <= u * magnitude g i) by (apply Rmult_le_pos; lra).
  assert (1 * val (spacing g i) <= (INR l - INR j) * val (spacing g i)) by (apply Rmult_le_compat_r; lra). lra.
Qed.
