(** Norms of the operators in the deviation of a magnetic medium from the background. *)
From Coq Require Import Reals Lra Lia List Arith Bool ZArith.
Require Import Verif.Base Verif.Cplx Verif.CSum Verif.Field Verif.Fourier_Model Verif.Fourier_Spec Verif.Fourier_Proofs.
Require Import Verif.Vec_Model Verif.Vec_Spec Verif.Vec_Proofs Verif.Solver_Model Verif.Solver_Spec Verif.Solver_Proofs.
Require Import Verif.Solver_Convergence Verif.Solver_Limit.
Import ListNotations.
Local Open Scope R_scope.
Local Open Scope C_scope.

Definition vnorm (n : nat) (s : list nat) (F : vfield) : R := sqrt (vnorm2 n s F).

Lemma vnorm_nonneg n s F : (0 <= vnorm n s F)%R.
Proof. apply sqrt_pos. Qed.
Lemma vnorm_sq n s F : (vnorm n s F * vnorm n s F = vnorm2 n s F)%R.
Proof. apply sqrt_sqrt, vnorm2_nonneg. Qed.
Lemma vnorm_ext n s F G : vagree n s F G -> vnorm n s F = vnorm n s G.
Proof. intros H. unfold vnorm. rewrite (vagree_vnorm2 n s F G H). reflexivity. Qed.
Lemma vnorm_plus n s (F G : vfield) : (vnorm n s (fun c p => F c p + G c p)%C <= vnorm n s F + vnorm n s G)%R.
Proof.
  pose proof (vnorm_nonneg n s F) as HF. pose proof (vnorm_nonneg n s G) as HG.
  apply Rsqr_incr_0_var; [|lra]. unfold Rsqr. rewrite vnorm_sq, vnorm2_plus.
  assert (fst (vip n s F G) <= vnorm n s F * vnorm n s G)%R.
  { eapply Rle_trans; [apply Rle_abs|]. eapply Rle_trans; [apply Cmod_Re_le|].
    apply Rsqr_incr_0_var; [|nra]. unfold Rsqr. eapply Rle_trans; [apply (cauchy_schwarz (n :: s) (flat F) (flat G))|].
    rewrite <- !vnorm2_flat, <- !vnorm_sq. right. ring. }
  rewrite <- !vnorm_sq. lra.
Qed.
Lemma vnorm_scal n s (a : C) F : vnorm n s (fun c p => a * F c p) = (Cmod a * vnorm n s F)%R.
Proof.
  unfold vnorm. rewrite vnorm2_scal, sqrt_mult; [|pose proof (Cmod_ge_0 a); nra|apply vnorm2_nonneg]. rewrite sqrt_square by apply Cmod_ge_0. reflexivity.
Qed.
Lemma vnorm_le n s F G r : (0 <= r)%R -> (vnorm2 n s F <= r * r * vnorm2 n s G)%R -> (vnorm n s F <= r * vnorm n s G)%R.
Proof.
  intros Hr H. apply Rsqr_incr_0_var; [|apply Rmult_le_pos; [exact Hr|apply vnorm_nonneg]]. unfold Rsqr. rewrite vnorm_sq.
  replace (r * vnorm n s G * (r * vnorm n s G))%R with (r * r * vnorm2 n s G)%R by (rewrite <- vnorm_sq; ring). exact H.
Qed.
Lemma vnorm_le2 n s F G r : (0 <= r)%R -> (vnorm n s F <= r * vnorm n s G)%R -> (vnorm2 n s F <= r * r * vnorm2 n s G)%R.
Proof.
  intros Hr H. rewrite <- !vnorm_sq. pose proof (vnorm_nonneg n s F).
  replace (r * r * (vnorm n s G * vnorm n s G))%R with (r * vnorm n s G * (r * vnorm n s G))%R by ring. apply Rmult_le_compat; assumption.
Qed.

(** Convolutions. *)
Lemma convolve_norm n s op F K : nonempty s -> (forall G, (vnorm2 n s (op G) <= K * vnorm2 n s G)%R) -> (vnorm2 n s (convolve s op F) <= K * vnorm2 n s F)%R.
Proof.
  intros Hs H.
  assert (0 < INR (points s))%R as Hp by (apply lt_0_INR, points_pos; assumption).
  apply Rmult_le_reg_l with (INR (points s)); [assumption|].
  assert (forall G, INR (points s) * vnorm2 n s (vift s G) = vnorm2 n s G)%R as Hi.
  { intros G. unfold vnorm2. rewrite <- rsum_scal. apply rsum_ext. intros c _. symmetry. apply ift_norm2. assumption. }
  assert (forall G, vnorm2 n s (vft s G) = INR (points s) * vnorm2 n s G)%R as Hf.
  { intros G. unfold vnorm2. rewrite <- rsum_scal. apply rsum_ext. intros c _. apply ft_norm2. assumption. }
  unfold convolve. rewrite Hi. eapply Rle_trans; [apply H|]. rewrite Hf. lra.
Qed.
Lemma curl_norm g F K : proper g -> (rndim g <= 3)%nat -> (forall k, inside (rshape g) k -> (k2 g k <= K)%R) ->
  (vnorm2 3 (rshape g) (curl g 3 F) <= K * vnorm2 3 (rshape g) F)%R.
Proof.
  intros Hg Hn HK. apply convolve_norm; [apply Hg|]. intros G. rewrite !vnorm2_points, <- rsum_over_scal. apply rsum_over_le. intros k Hk.
  specialize (HK k Hk). rewrite k2_wavevector in HK by exact Hn. cbn [rsum]. rewrite !curl_ft_cross by (exact Hn || lia). unfold cross3.
  rewrite !Cmod_mult. replace (Cmod Ci) with 1%R by (unfold Cmod; cbn; replace (0 * (0 * 1) + 1 * (1 * 1))%R with 1%R by ring; rewrite sqrt_1; reflexivity).
  rewrite !Rmult_1_l, !Cmod_sq. set (x := wavevector g k 0) in *. set (y := wavevector g k 1) in *. set (z := wavevector g k 2) in *.
  destruct (G 0%nat k) as [a0 a1], (G 1%nat k) as [b0 b1], (G 2%nat k) as [c0 c1]. cbn.
  set (N := (a0 * a0 + a1 * a1 + (b0 * b0 + b1 * b1) + (c0 * c0 + c1 * c1))%R).
  assert (0 <= N)%R as HN by (unfold N; nra).
  apply Rle_trans with ((x * x + y * y + z * z) * N)%R.
  - unfold N. pose proof (Rle_0_sqr (x * a0 + y * b0 + z * c0)) as H1. pose proof (Rle_0_sqr (x * a1 + y * b1 + z * c1)) as H2. unfold Rsqr in H1, H2. lra.
  - replace (K * (0 + (a0 * a0 + a1 * a1) + (b0 * b0 + b1 * b1) + (c0 * c0 + c1 * c1)))%R with (K * N)%R by (unfold N; ring).
    apply Rmult_le_compat_r; assumption.
Qed.

(** No spatial frequency exceeds half the sampling frequency. *)
Lemma k_index_le n j : (j < n)%nat -> (Rabs (IZR (k_index n j)) <= INR n / 2)%R.
Proof.
  intros Hj. unfold k_index. rewrite INR_IZR_INZ. destruct (Nat.ltb_spec (2 * j) n) as [H|H].
  - rewrite Rabs_pos_eq by (apply IZR_le; lia). assert (2 * Z.of_nat j <= Z.of_nat n)%Z as H1 by lia. apply IZR_le in H1. rewrite mult_IZR in H1. lra.
  - rewrite Rabs_left1 by (apply IZR_le; lia). assert (2 * (Z.of_nat n - Z.of_nat j) <= Z.of_nat n)%Z as H1 by lia. apply IZR_le in H1.
    rewrite mult_IZR, minus_IZR in H1. rewrite minus_IZR. lra.
Qed.
Lemma k_axis_le n st j : (j < n)%nat -> st <> 0%R -> (k_axis n st j * k_axis n st j <= (2 * PI / (2 * st)) * (2 * PI / (2 * st)))%R.
Proof.
  intros Hj Hst. unfold k_axis. assert (0 < INR n)%R as Hn by (apply lt_0_INR; lia). pose proof (k_index_le n j Hj) as H.
  set (x := IZR (k_index n j)) in *.
  replace (2 * PI * x / (INR n * st) * (2 * PI * x / (INR n * st)))%R with ((x * x) * ((2 * PI / (INR n * st)) * (2 * PI / (INR n * st))))%R by (field; lra).
  replace (2 * PI / (2 * st) * (2 * PI / (2 * st)))%R with ((INR n / 2 * (INR n / 2)) * ((2 * PI / (INR n * st)) * (2 * PI / (INR n * st))))%R by (field; lra).
  apply Rmult_le_compat_r; [apply Rle_0_sqr|]. rewrite <- (Rabs_pos_eq (x * x)) by apply Rle_0_sqr. rewrite Rabs_mult. pose proof (Rabs_pos x). apply Rmult_le_compat; assumption.
Qed.
Definition nyquist2 (step : list R) : R := fold_right (fun d acc => (2 * PI / (2 * d)) * (2 * PI / (2 * d)) + acc)%R 0%R step.
Lemma nyquist2_nonneg step : (0 <= nyquist2 step)%R.
Proof. induction step as [|d step IH]; cbn [nyquist2 fold_right]; [lra|]. fold (nyquist2 step). pose proof (Rle_0_sqr (2 * PI / (2 * d))) as H. unfold Rsqr in H. lra. Qed.
Lemma rsum_head n f : rsum (S n) f = (f 0%nat + rsum n (fun i => f (S i)))%R.
Proof. induction n as [|n IH]; [cbn; ring|]. cbn [rsum] in *. rewrite IH. ring. Qed.
Lemma k2_le g k : proper g -> inside (rshape g) k -> (k2 g k <= nyquist2 (rstep g))%R.
Proof.
  destruct g as [s st]. unfold k2, kvec, rndim. cbn [rshape rstep]. intros (HL & Hs & Hst) Hk. cbn [rshape rstep] in *. revert st HL Hst.
  induction Hk as [|m i s' p Hi Hp IH]; intros st HL Hst.
  - cbn. apply nyquist2_nonneg.
  - destruct st as [|d st]; [discriminate|]. inversion Hs; subst. inversion Hst; subst. cbn [length]. rewrite rsum_head. cbn [nth nyquist2 fold_right]. fold (nyquist2 st).
    apply Rplus_le_compat; [apply k_axis_le; assumption|]. apply IH; try assumption. cbn in HL. lia.
Qed.
