(** The operators of the medium are bounded, so that the susceptibility operator is injective for large imaginary alpha. *)
From Coq Require Import Reals Lra Lia List Arith Bool.
Require Import Verif.Base Verif.Cplx Verif.CSum Verif.Field Verif.Fourier_Model Verif.Fourier_Spec Verif.Fourier_Proofs.
Require Import Verif.Vec_Model Verif.Vec_Spec Verif.Vec_Proofs Verif.Solver_Model Verif.Solver_Spec Verif.Solver_Proofs.
Require Import Verif.Solver_Convergence Verif.Solver_Limit Verif.Solver_Choice.
Require Import Verif.Derived_Model Verif.Derived_Spec Verif.Derived_Tensor Verif.Solver_Maxwell.
Import ListNotations.
Local Open Scope R_scope.
Local Open Scope C_scope.

Definition bounded (s : list nat) (op : vfield -> vfield) : Prop :=
  exists K, (0 <= K)%R /\ forall F, (vnorm2 3 s (op F) <= K * vnorm2 3 s F)%R.

Lemma bounded_plus s a b : bounded s a -> bounded s b -> bounded s (fun F c p => a F c p + b F c p).
Proof.
  intros (Ka & Ha0 & Ha) (Kb & Hb0 & Hb). exists (2 * Ka + 2 * Kb)%R. split; [lra|]. intros F.
  eapply Rle_trans; [apply vnorm2_sum_le|]. specialize (Ha F). specialize (Hb F). lra.
Qed.
Lemma bounded_scal s (k : C) a : bounded s a -> bounded s (fun F c p => k * a F c p).
Proof.
  intros (Ka & Ha0 & Ha). exists (Cmod k * Cmod k * Ka)%R. pose proof (Cmod_ge_0 k) as Hk.
  assert (0 <= Cmod k * Cmod k)%R by nra. split; [apply Rmult_le_pos; assumption|]. intros F. rewrite vnorm2_scal.
  rewrite (Rmult_assoc (Cmod k * Cmod k) Ka). apply Rmult_le_compat_l; [assumption|apply Ha].
Qed.
Lemma bounded_comp s a b : bounded s a -> bounded s b -> bounded s (fun F => a (b F)).
Proof.
  intros (Ka & Ha0 & Ha) (Kb & Hb0 & Hb). exists (Ka * Kb)%R. split; [apply Rmult_le_pos; assumption|]. intros F.
  eapply Rle_trans; [apply Ha|]. rewrite Rmult_assoc. apply Rmult_le_compat_l; [assumption|apply Hb].
Qed.
Lemma bounded_id s : bounded s (fun F => F).
Proof. exists 1%R. split; [lra|]. intros F. lra. Qed.
Lemma bounded_ext s a b : (forall F, vagree 3 s (a F) (b F)) -> bounded s a -> bounded s b.
Proof. intros H (K & HK & Ha). exists K. split; [assumption|]. intros F. rewrite <- (vagree_vnorm2 3 s _ _ (H F)). apply Ha. Qed.

(** Operators that act on the vector at each point. *)
Lemma rmax_nonneg n f : (0 <= rmax n f)%R.
Proof. induction n as [|n IH]; cbn; [lra|]. eapply Rle_trans; [exact IH|apply Rmax_l]. Qed.
Lemma rmax_over_nonneg s F : (0 <= rmax_over s F)%R.
Proof. destruct s; cbn; [apply Rmax_l|apply rmax_nonneg]. Qed.
Lemma csum3_mod2 (a b : nat -> C) : (Cmod (csum 3 (fun j => Cmult (a j) (b j))) * Cmod (csum 3 (fun j => Cmult (a j) (b j)))
  <= rsum 3 (fun j => Cmod (a j) * Cmod (a j)) * rsum 3 (fun j => Cmod (b j) * Cmod (b j)))%R.
Proof.
  pose proof (cauchy_schwarz [3%nat] (fun q => Cconj (a (hd 0%nat q))) (fun q => b (hd 0%nat q))) as H.
  unfold ip, norm2 in H. cbn [sum_over rsum_over hd] in H.
  rewrite (csum_ext _ _ (fun j => Cmult (a j) (b j))) in H by (intros; rewrite Cconj_conj; reflexivity).
  rewrite (rsum_ext 3 (fun i => Cmod (Cconj (a i)) * Cmod (Cconj (a i)))%R (fun j => Cmod (a j) * Cmod (a j))%R) in H
    by (intros; rewrite Cmod_conj; reflexivity).
  exact H.
Qed.
Lemma bounded_pointwise s (op : vfield -> vfield) (m : nat -> nat -> sfield) :
  (forall F c p, (c < 3)%nat -> inside s p -> op F c p = csum 3 (fun j => m c j p * F j p)) -> bounded s op.
Proof.
  intros H. set (w := fun p => rsum 3 (fun i => rsum 3 (fun j => (Cmod (m i j p) * Cmod (m i j p))%R))).
  assert (forall p, 0 <= w p)%R as Hw.
  { intros p. apply rsum_nonneg. intros i _. apply rsum_nonneg. intros j _. pose proof (Cmod_ge_0 (m i j p)). nra. }
  exists (rmax_over s w). split; [apply rmax_over_nonneg|]. intros F. rewrite !vnorm2_points, <- rsum_over_scal. apply rsum_over_le.
  intros p Hp. set (v := rsum 3 (fun c => (Cmod (F c p) * Cmod (F c p))%R)).
  assert (0 <= v)%R as Hv by (apply rsum_nonneg; intros i _; pose proof (Cmod_ge_0 (F i p)); nra).
  apply Rle_trans with (w p * v)%R; [|apply Rmult_le_compat_r; [assumption|apply rmax_over_ge; assumption]].
  unfold w. rewrite (Rmult_comm _ v), <- rsum_scal. apply rsum_le. intros c Hc. rewrite H by assumption. rewrite (Rmult_comm v).
  apply (csum3_mod2 (fun j => m c j p) (fun j => F j p)).
Qed.
Lemma bounded_tapply s t : bounded s (tapply t).
Proof.
  destruct t as [f|m].
  - apply (bounded_pointwise s _ (fun i j p => eye i j * f p)). intros F c p Hc _. cbn [tapply].
    symmetry. apply (csum_eye (f p) (fun j => F j p)). assumption.
  - apply (bounded_pointwise s _ m). reflexivity.
Qed.
Lemma bounded_convolve s op : nonempty s -> bounded s op -> bounded s (convolve s op).
Proof.
  intros Hs (K & HK & H). exists K. split; [assumption|]. intros F.
  assert (0 < INR (points s))%R as Hp by (apply lt_0_INR, points_pos; assumption).
  apply Rmult_le_reg_l with (INR (points s)); [assumption|].
  assert (forall G, INR (points s) * vnorm2 3 s (vift s G) = vnorm2 3 s G)%R as Hi.
  { intros G. unfold vnorm2. rewrite <- rsum_scal. apply rsum_ext. intros c _. symmetry. apply ift_norm2. assumption. }
  assert (forall G, vnorm2 3 s (vft s G) = INR (points s) * vnorm2 3 s G)%R as Hf.
  { intros G. unfold vnorm2. rewrite <- rsum_scal. apply rsum_ext. intros c _. apply ft_norm2. assumption. }
  unfold convolve. rewrite Hi. eapply Rle_trans; [apply H|]. rewrite Hf. lra.
Qed.
Definition cross_matrix (k : nat -> C) (i j : nat) : C :=
  match i, j with
  | 0%nat, 1%nat => - k 2%nat | 0%nat, 2%nat => k 1%nat
  | 1%nat, 0%nat => k 2%nat | 1%nat, 2%nat => - k 0%nat
  | 2%nat, 0%nat => - k 1%nat | 2%nat, 1%nat => k 0%nat
  | _, _ => 0
  end.
Lemma bounded_curl g : proper g -> (rndim g <= 3)%nat -> bounded (rshape g) (curl g 3).
Proof.
  intros Hg Hn. apply bounded_convolve; [apply Hg|].
  apply (bounded_pointwise _ _ (fun i j p => Ci * cross_matrix (fun d => RtoC (wavevector g p d)) i j)).
  intros F c p Hc Hp. rewrite curl_ft_cross by assumption. unfold cross3.
  destruct c as [|[|[|c]]]; [| | |lia]; cbn [csum cross_matrix]; ring.
Qed.

(** The imaginary part of alpha above which the susceptibility operator is injective. *)
Section Injective.
  Variables (g : raster) (k0 beta : R) (eps xi zeta mu nu : tensor) (S : vfield).
  Hypothesis Hs : solvable true g k0.
  Hypothesis Hb : beta <> 0%R.
  Hypothesis Hnu : inverse_of (rshape g) mu nu.

  Lemma medium_bounded : bounded (rshape g) (medium_op g k0 beta eps xi zeta nu).
  Proof.
    destruct Hs as (Hg & Hk & Hn). specialize (Hn eq_refl). pose proof (bounded_curl g Hg Hn) as Hc.
    pose proof (bounded_tapply (rshape g)) as Ht.
    pose proof (bounded_comp _ _ _ (Ht nu) (Ht zeta)) as H1.
    pose proof (bounded_comp _ _ _ (Ht xi) H1) as H2.
    pose proof (bounded_comp _ _ _ H1 Hc) as H3.
    pose proof (bounded_comp _ _ _ Hc (bounded_comp _ _ _ (Ht xi) (Ht nu))) as H4.
    pose proof (bounded_comp _ _ _ Hc (bounded_comp _ _ _ (Ht nu) Hc)) as H5.
    pose proof (bounded_comp _ _ _ Hc Hc) as H6.
    pose proof (bounded_plus _ _ _ (bounded_scal _ (/ RtoC beta) _ (Ht eps))
      (bounded_plus _ _ _ (bounded_scal _ (- / RtoC beta) _ H2)
      (bounded_plus _ _ _ (bounded_scal _ (Ci / RtoC k0 / RtoC beta) _ H3)
      (bounded_plus _ _ _ (bounded_scal _ (- (Ci / RtoC k0) / RtoC beta) _ H4)
      (bounded_plus _ _ _ (bounded_scal _ (- / RtoC (k0 * k0) / RtoC beta) _ H5)
        (bounded_scal _ (/ RtoC (k0 * k0)) _ H6)))))) as H.
    revert H. apply bounded_ext. intros F c p _ _. unfold medium_op, Cdiv. ring.
  Qed.

  Lemma chi_injective_large (alpha_r : R) : exists A, forall alpha : C, fst alpha = alpha_r -> (A < Rabs (snd alpha))%R ->
    operator_injective 3 (rshape g) (chi_op (prepare (scaled k0 g) true true alpha beta eps xi zeta mu S)).
  Proof.
    destruct (bounded_plus _ _ _ medium_bounded (bounded_scal _ (- RtoC alpha_r) _ (bounded_id _))) as (K & HK & HB).
    exists (1 + K)%R. intros alpha Hr Hi d Hd. assert (snd alpha <> 0%R) as Ha by (intros E; rewrite E, Rabs_R0 in Hi; lra).
    set (M := fun c p => medium_op g k0 beta eps xi zeta nu d c p + - RtoC alpha_r * d c p).
    assert (vagree 3 (rshape g) M (fun c p => Ci * im alpha * d c p)) as HM.
    { intros c p Hc Hp. specialize (Hd c p Hc Hp). rewrite (mg_chi g k0 alpha beta eps xi zeta mu nu S Hs Ha Hb Hnu d c p Hc Hp) in Hd.
      assert (alpha = RtoC alpha_r + Ci * im alpha) as Hal by (apply C_eq; cbn; rewrite ?Hr; ring).
      assert (im alpha <> 0) by auto with cneq. pose proof Ci_neq.
      unfold M. transitivity (im alpha / Ci * (Ci / im alpha * (medium_op g k0 beta eps xi zeta nu d c p - alpha * d c p)) + (alpha - RtoC alpha_r) * d c p).
      - field. auto.
      - rewrite Hd. rewrite Hal at 2. ring. }
    apply vnorm2_zero. specialize (HB d). fold M in HB. rewrite (vagree_vnorm2 _ _ _ _ HM), vnorm2_scal in HB.
    pose proof (vnorm2_nonneg 3 (rshape g) d) as H0.
    assert (Cmod (Cmult Ci (im alpha)) = Rabs (snd alpha)) as Hm.
    { rewrite Cmod_mult. unfold im. rewrite Cmod_R. replace (Cmod Ci) with 1%R; [ring|].
      unfold Cmod. cbn. replace (0 * (0 * 1) + 1 * (1 * 1))%R with 1%R by ring. symmetry. apply sqrt_1. }
    rewrite Hm in HB. assert (K < Rabs (snd alpha) * Rabs (snd alpha))%R as HK2.
    { apply Rlt_le_trans with ((1 + K) * (1 + K))%R; [nra|]. apply Rmult_le_compat; lra. }
    destruct (Rle_lt_or_eq_dec _ _ H0) as [Hpos|Heq]; [|symmetry; exact Heq]. exfalso.
    pose proof (Rmult_lt_compat_r _ _ _ Hpos HK2). lra.
  Qed.
End Injective.
