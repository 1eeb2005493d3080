(** Proofs about the speed of convergence and the effect of rounding errors. *)
From Coq Require Import Reals Lra Lia List Arith Bool.
From Coquelicot Require Import Rbar Hierarchy Lim_seq Series.
Require Import Verif.Base Verif.Cplx Verif.CSum Verif.Field Verif.Fourier_Model Verif.Fourier_Spec Verif.Fourier_Proofs.
Require Import Verif.Vec_Model Verif.Vec_Spec Verif.Vec_Proofs Verif.Solver_Model Verif.Solver_Spec Verif.Solver_Proofs.
Require Import Verif.Solver_Convergence Verif.Solver_Limit Verif.Solver_Choice Verif.Magnetic_Norm Verif.Robust_Spec.
Import ListNotations.
Local Open Scope R_scope.
Local Open Scope C_scope.

(** ** Sequences of numbers *)
Lemma bounded_growth (e : nat -> R) r D : (0 <= r < 1)%R -> (0 <= D)%R -> (forall m, (e (S m) <= r * e m + D)%R) ->
  forall m, (e m <= r ^ m * e 0%nat + D / (1 - r))%R.
Proof.
  intros Hr HD H m. assert (0 <= D / (1 - r))%R as HQ by (apply Rmult_le_pos; [assumption|left; apply Rinv_0_lt_compat; lra]).
  induction m as [|m IH]; [cbn; lra|]. eapply Rle_trans; [apply H|]. cbn [pow].
  assert (D = D / (1 - r) - r * (D / (1 - r)))%R as HD' by (field; lra).
  set (q := (D / (1 - r))%R) in *. nra.
Qed.
Lemma linear_growth (e : nat -> R) a D : (0 <= a)%R -> (0 <= D)%R -> (forall m, (0 <= e m)%R) -> (forall m, (e (S m) <= (1 + a) * e m + D)%R) ->
  forall m, (e m <= (1 + a) ^ m * (e 0%nat + INR m * D))%R.
Proof.
  intros Ha HD Hp H m. induction m as [|m IH]; [cbn; lra|]. eapply Rle_trans; [apply H|]. rewrite S_INR. cbn [pow].
  assert (1 <= (1 + a) ^ m)%R as H1 by (apply pow_R1_Rle; lra). set (q := ((1 + a) ^ m)%R) in *.
  replace ((1 + a) * q * (e 0%nat + (INR m + 1) * D))%R with ((1 + a) * (q * (e 0%nat + INR m * D)) + (1 + a) * q * D)%R by ring.
  apply Rplus_le_compat; [apply Rmult_le_compat_l; lra|]. assert (1 <= (1 + a) * q)%R by nra. nra.
Qed.

(** ** Sizes *)
Lemma size_minus n s (F G : vfield) : (size n s (fun c p => F c p - G c p)%C <= size n s F + size n s G)%R.
Proof.
  change (vnorm n s (fun c p => F c p - G c p)%C <= vnorm n s F + vnorm n s G)%R.
  rewrite (vnorm_ext n s _ (fun c p => F c p + RtoC (-1) * G c p)%C) by (intros c p _ _; replace (RtoC (-1)) with (- RtoC 1)%C by (unfold RtoC, Copp; cbn; f_equal; ring); ring).
  eapply Rle_trans; [apply (vnorm_plus n s F (fun c p => RtoC (-1) * G c p)%C)|]. rewrite vnorm_scal, Cmod_R, Rabs_left by lra. apply Req_le. ring.
Qed.
Lemma size_triangle n s (F G H : vfield) :
  (size n s (fun c p => F c p - H c p)%C <= size n s (fun c p => F c p - G c p)%C + size n s (fun c p => G c p - H c p)%C)%R.
Proof.
  change (vnorm n s (fun c p => F c p - H c p)%C <= vnorm n s (fun c p => F c p - G c p)%C + vnorm n s (fun c p => G c p - H c p)%C)%R.
  rewrite (vnorm_ext n s _ (fun c p => (F c p - G c p) + (G c p - H c p))%C) by (intros c p _ _; ring).
  apply (vnorm_plus n s (fun c p => F c p - G c p)%C (fun c p => G c p - H c p)%C).
Qed.
Lemma size_split n s (F G : vfield) : (size n s F <= size n s G + size n s (fun c p => F c p - G c p)%C)%R.
Proof.
  change (vnorm n s F <= vnorm n s G + vnorm n s (fun c p => F c p - G c p)%C)%R.
  rewrite (vnorm_ext n s F (fun c p => G c p + (F c p - G c p))%C) by (intros c p _ _; ring).
  apply (vnorm_plus n s G (fun c p => F c p - G c p)%C).
Qed.
Lemma size_nonneg n s F : (0 <= size n s F)%R. Proof. apply sqrt_pos. Qed.
Lemma error_nonneg n s k0 F E : (0 <= error n s k0 F E)%R. Proof. apply sqrt_pos. Qed.

(** ** The rate *)
Lemma rate_range beta loss contrast low high : (0 < beta)%R -> (0 < loss)%R -> (0 <= contrast < low)%R -> (low <= high)%R ->
  (0 < rate beta loss contrast low high <= 1 / 2)%R.
Proof.
  intros Hb Hl Hc Hh. unfold rate.
  assert (0 < loss / (beta * high))%R as H1 by (apply Rmult_lt_0_compat; [assumption|apply Rinv_0_lt_compat; nra]).
  assert (0 <= contrast / low < 1)%R as H2.
  { split; [apply Rmult_le_pos; [lra|left; apply Rinv_0_lt_compat; lra]|]. apply Rmult_lt_reg_r with low; [lra|]. unfold Rdiv. rewrite Rmult_assoc, Rinv_l; lra. }
  split; [apply Rmin_glb_lt; nra|]. eapply Rle_trans; [apply Rmin_r|]. nra.
Qed.
Lemma factor_range beta loss contrast low high : (0 < beta)%R -> (0 < loss)%R -> (0 <= contrast < low)%R -> (low <= high)%R ->
  (0 <= factor beta loss contrast low high < 1)%R /\ (factor beta loss contrast low high * factor beta loss contrast low high = 1 - rate beta loss contrast low high)%R.
Proof.
  intros Hb Hl Hc Hh. pose proof (rate_range _ _ _ _ _ Hb Hl Hc Hh) as Hr. unfold factor. split; [split; [apply sqrt_pos|]|apply sqrt_sqrt; lra].
  rewrite <- sqrt_1 at 2. apply sqrt_lt_1_alt. lra.
Qed.

Section Step.
  Variables (v : bool) (g : raster) (k0 : R) (beta : R) (eps mu : tensor) (S : vfield).
  Hypothesis Hs : solvable v g k0.
  Hypothesis Hf : fits v eps.
  Hypothesis Hmu : fits v mu.
  Hypothesis Hb : (0 < beta)%R.
  Let n := (if v then 3 else 1)%nat.
  Let o alpha := prepare (scaled k0 g) v false alpha beta eps tzero tzero mu S.
  Variables (loss contrast low high : R).
  Hypothesis Hloss : absorbs n (rshape g) eps loss.
  Hypothesis Hc : (0 <= contrast < low)%R.
  Hypothesis Hh : (low <= high)%R.
  Variable E : vfield.
  Hypothesis HE : wave_equation v g k0 beta eps E S.

  Lemma error_scaled F : (k0 * k0 * error n (rshape g) k0 F E = vnorm n (rshape g) (fun c p => F c p - RtoC (k0 * k0) * E c p)%C)%R.
  Proof.
    destruct Hs as (_ & Hk & _). unfold error, size, vnorm. unfold n. rewrite (electric_norm v g k0 F E Hk).
    assert (0 < k0 * k0)%R by nra. rewrite sqrt_mult; [|nra|apply vnorm2_nonneg]. rewrite sqrt_square by lra. reflexivity.
  Qed.

  Lemma rho_deviates (alpha : C) : (low <= snd alpha)%R -> deviates n (rshape g) eps beta (fst alpha) contrast ->
    (0 <= contrast / snd alpha < 1)%R /\ deviates n (rshape g) eps beta (fst alpha) (contrast / snd alpha * snd alpha).
  Proof.
    intros Ha Hd. split; [split|].
    - apply Rmult_le_pos; [lra|]. left. apply Rinv_0_lt_compat. lra.
    - apply Rmult_lt_reg_r with (snd alpha); [lra|]. unfold Rdiv. rewrite Rmult_assoc, Rinv_l; lra.
    - replace (contrast / snd alpha * snd alpha)%R with contrast by (field; lra). exact Hd.
  Qed.
  Lemma exact_fixed (alpha : C) : (low <= snd alpha)%R -> deviates n (rshape g) eps beta (fst alpha) contrast ->
    vagree n (rshape g) (update (o alpha) (fun c p => RtoC (k0 * k0) * E c p)) (fun _ _ => 0).
  Proof.
    intros Ha Hd. destruct (rho_deviates alpha Ha Hd) as (Hr & Hd'). destruct Hs as (Hg & Hk & Hn).
    apply (proj2 (si_fixed v g k0 alpha beta eps mu S Hs Hf Hmu ltac:(lra) Hb _ Hd' Hr (fun c p => RtoC (k0 * k0) * E c p))).
    rewrite (si_scaled_back k0 E Hk). exact HE.
  Qed.
  (** One exact step reduces the error by the factor. *)
  Lemma step_error (alpha : C) F : (0 < loss)%R -> (low <= snd alpha <= high)%R -> deviates n (rshape g) eps beta (fst alpha) contrast ->
    (error n (rshape g) k0 (next_field (o alpha) F) E <= factor beta loss contrast low high * error n (rshape g) k0 F E)%R.
  Proof.
    intros Hl Ha Hd. destruct (rho_deviates alpha (proj1 Ha) Hd) as (Hr & Hd'). pose proof Hs as (Hg & Hk & Hn).
    destruct (factor_range beta loss contrast low high Hb Hl Hc Hh) as (Hq & Hqq). pose proof (rate_range beta loss contrast low high Hb Hl Hc Hh) as Hrt.
    pose proof (exact_fixed alpha (proj1 Ha) Hd) as Hfix. set (K := fun c p => RtoC (k0 * k0) * E c p) in *.
    assert (2 * rate beta loss contrast low high <= 2 * (loss / (beta * snd alpha)))%R as Hk1.
    { apply Rmult_le_compat_l; [lra|]. eapply Rle_trans; [apply Rmin_l|]. apply Rmult_le_compat_l; [lra|]. apply Rinv_le_contravar; nra. }
    assert (2 * rate beta loss contrast low high <= 1 - contrast / snd alpha * (contrast / snd alpha))%R as Hk2.
    { eapply Rle_trans; [apply Rmult_le_compat_l; [lra|apply Rmin_r]|].
      assert (contrast / snd alpha <= contrast / low)%R by (apply Rmult_le_compat_l; [lra|apply Rinv_le_contravar; lra]). nra. }
    pose proof (distance_contracts v (scaled k0 g) alpha beta eps mu S (si_grid v g k0 Hs) (si_ndim v g k0 Hs) ltac:(lra) Hb Hf loss _ Hloss Hd' F K
      (2 * rate beta loss contrast low high) Hk1 Hk2 ltac:(lra)) as H.
    change (rshape (scaled k0 g)) with (rshape g) in H. fold (o alpha) n in H.
    rewrite (vagree_vnorm2 n (rshape g) _ (fun c p => next_field (o alpha) F c p - K c p)) in H
      by (intros c p Hcc Hp; unfold next_field at 2; rewrite (Hfix c p Hcc Hp); ring).
    replace (1 - 2 * rate beta loss contrast low high / 2)%R with (factor beta loss contrast low high * factor beta loss contrast low high)%R in H by lra.
    apply vnorm_le in H; [|lra]. pose proof (error_scaled F) as H1. pose proof (error_scaled (next_field (o alpha) F)) as H2. fold K in H1, H2.
    assert (0 < k0 * k0)%R by nra. apply Rmult_le_reg_l with (k0 * k0)%R; [assumption|]. rewrite H2.
    replace (k0 * k0 * (factor beta loss contrast low high * error n (rshape g) k0 F E))%R
      with (factor beta loss contrast low high * (k0 * k0 * error n (rshape g) k0 F E))%R by ring. rewrite H1. exact H.
  Qed.
  (** Without loss it does not increase the error. *)
  Lemma step_error_lossless (alpha : C) F : (0 <= loss)%R -> (low <= snd alpha)%R -> deviates n (rshape g) eps beta (fst alpha) contrast ->
    (error n (rshape g) k0 (next_field (o alpha) F) E <= error n (rshape g) k0 F E)%R.
  Proof.
    intros Hl Ha Hd. destruct (rho_deviates alpha Ha Hd) as (Hr & Hd').
    unfold error, size. apply sqrt_le_1_alt.
    exact (si_error v g k0 alpha beta eps mu S Hs Hf Hmu ltac:(lra) Hb loss _ Hloss Hd' Hr F E Hl HE).
  Qed.

  Variable alphas : nat -> C.
  Variables d0 d1 : R.
  Hypothesis Hd0 : (0 <= d0)%R.
  Hypothesis Hd1 : (0 <= d1)%R.
  Variable X : nat -> vfield.
  Hypothesis HX : perturbed n (rshape g) k0 (fun m => next_field (o (alphas m))) d0 d1 X.

  Lemma perturbed_step r m : (error n (rshape g) k0 (next_field (o (alphas m)) (X m)) E <= r * error n (rshape g) k0 (X m) E)%R ->
    (error n (rshape g) k0 (X (Datatypes.S m)) E <= (r + d1) * error n (rshape g) k0 (X m) E + (d0 + d1 * size n (rshape g) E))%R.
  Proof.
    intros H. pose proof (HX m) as H1. unfold error in *.
    pose proof (size_triangle n (rshape g) (electric_field k0 (X (Datatypes.S m))) (electric_field k0 (next_field (o (alphas m)) (X m))) E) as H2.
    pose proof (size_split n (rshape g) (electric_field k0 (X m)) E) as H3. nra.
  Qed.
  Lemma perturbed_error : (0 < loss)%R -> (forall m, (low <= snd (alphas m) <= high)%R /\ deviates n (rshape g) eps beta (fst (alphas m)) contrast) ->
    let r := factor beta loss contrast low high in (r + d1 < 1)%R ->
    forall m, (error n (rshape g) k0 (X m) E <= (r + d1) ^ m * error n (rshape g) k0 (X 0%nat) E + (d0 + d1 * size n (rshape g) E) / (1 - (r + d1)))%R.
  Proof.
    intros Hl Ha r Hr. destruct (factor_range beta loss contrast low high Hb Hl Hc Hh) as (Hq & _). fold r in Hq.
    apply (bounded_growth (fun m => error n (rshape g) k0 (X m) E)); [lra| |].
    - pose proof (size_nonneg n (rshape g) E). nra.
    - intros m. apply perturbed_step. apply step_error; [assumption|apply Ha|apply Ha].
  Qed.
  Lemma perturbed_lossless : (0 <= loss)%R -> (forall m, (low <= snd (alphas m))%R /\ deviates n (rshape g) eps beta (fst (alphas m)) contrast) ->
    forall m, (error n (rshape g) k0 (X m) E <= (1 + d1) ^ m * (error n (rshape g) k0 (X 0%nat) E + INR m * (d0 + d1 * size n (rshape g) E)))%R.
  Proof.
    intros Hl Ha. apply (linear_growth (fun m => error n (rshape g) k0 (X m) E)); [assumption| | |].
    - pose proof (size_nonneg n (rshape g) E). nra.
    - intros m. apply error_nonneg.
    - intros m. apply perturbed_step. rewrite Rmult_1_l. apply step_error_lossless; [assumption|apply Ha|apply Ha].
  Qed.

  (** The correction measures the error of any field. *)
  Lemma electric_update (alpha : C) F c p : electric_field k0 (update (o alpha) F) c p = electric_field k0 (next_field (o alpha) F) c p - electric_field k0 F c p.
  Proof.
    destruct Hs as (_ & Hk & _). unfold electric_field, next_field. field. apply RtoC_neq, Rmult_integral_contrapositive. split; assumption.
  Qed.
  Lemma correction_lower (alpha : C) F : (0 < loss)%R -> (low <= snd alpha <= high)%R -> deviates n (rshape g) eps beta (fst alpha) contrast ->
    ((1 - factor beta loss contrast low high) * error n (rshape g) k0 F E <= size n (rshape g) (electric_field k0 (update (o alpha) F)))%R.
  Proof.
    intros Hl Ha Hd. pose proof (step_error alpha F Hl Ha Hd) as H. unfold error in *.
    set (N := electric_field k0 (next_field (o alpha) F)) in *. set (G := electric_field k0 F) in *.
    pose proof (size_triangle n (rshape g) G N E) as H1.
    assert (size n (rshape g) (electric_field k0 (update (o alpha) F)) = size n (rshape g) (fun c p => G c p - N c p)%C) as ->; [|lra].
    change (vnorm n (rshape g) (electric_field k0 (update (o alpha) F)) = vnorm n (rshape g) (fun c p => G c p - N c p)%C).
    rewrite (vnorm_ext n (rshape g) _ (fun c p => RtoC (-1) * (G c p - N c p))%C).
    - rewrite vnorm_scal, Cmod_R, Rabs_left by lra. ring.
    - intros c p _ _. rewrite electric_update. fold N G. replace (RtoC (-1)) with (- RtoC 1)%C by (unfold RtoC, Copp; cbn; f_equal; ring). ring.
  Qed.
  Lemma correction_upper (alpha : C) F : (0 <= loss)%R -> (low <= snd alpha)%R -> deviates n (rshape g) eps beta (fst alpha) contrast ->
    (size n (rshape g) (electric_field k0 (update (o alpha) F)) <= 2 * error n (rshape g) k0 F E)%R.
  Proof.
    intros Hl Ha Hd. pose proof (step_error_lossless alpha F Hl Ha Hd) as H. unfold error in *.
    pose proof (size_minus n (rshape g) (fun c p => electric_field k0 (next_field (o alpha) F) c p - E c p)%C (fun c p => electric_field k0 F c p - E c p)%C) as H1.
    change (vnorm n (rshape g) (electric_field k0 (update (o alpha) F)) <= 2 * size n (rshape g) (fun c p => electric_field k0 F c p - E c p)%C)%R.
    rewrite (vnorm_ext n (rshape g) _ (fun c p => (electric_field k0 (next_field (o alpha) F) c p - E c p) - (electric_field k0 F c p - E c p))%C)
      by (intros c p _ _; rewrite electric_update; ring). unfold size in *. unfold vnorm. cbv beta in *. lra.
  Qed.
End Step.

(** ** The chosen alpha *)
Lemma rmax_le n f b : (0 <= b)%R -> (forall i, (i < n)%nat -> (f i <= b)%R) -> (rmax n f <= b)%R.
Proof. intros Hb H. induction n as [|n IH]; [exact Hb|]. cbn [rmax]. apply Rmax_lub; [apply IH; intros; apply H; lia|apply H; lia]. Qed.
Lemma rmax_over_le s F b : (0 <= b)%R -> (forall p, inside s p -> (F p <= b)%R) -> (rmax_over s F <= b)%R.
Proof.
  intros Hb. revert F. induction s as [|m s IH]; intros F H; cbn [rmax_over].
  - apply Rmax_lub; [exact Hb|]. apply H. constructor.
  - apply rmax_le; [exact Hb|]. intros i Hi. apply (IH (fun p => F (i :: p))). intros p Hp. apply H. constructor; assumption.
Qed.
Lemma sigma_le g e ar beta contrast : (0 < beta)%R -> (0 <= contrast)%R ->
  (forall p, inside (rshape g) p -> (Cmod (e p - RtoC (ar * beta))%C <= contrast * beta)%R) -> (sigmaEE g e ar beta <= contrast)%R.
Proof.
  intros Hb Hc H. unfold sigmaEE. rewrite (Rabs_pos_eq beta) by lra. apply Rmult_le_reg_r with beta; [assumption|].
  unfold Rdiv. rewrite Rmult_assoc, Rinv_l, Rmult_1_r by lra.
  rewrite <- (sqrt_square (contrast * beta)) by nra. apply sqrt_le_1_alt. apply rmax_over_le; [nra|]. intros p Hp.
  rewrite delta_beta2_mod. pose proof (H p Hp). pose proof (Cmod_ge_0 (e p - RtoC (ar * beta))). apply Rmult_le_compat; assumption.
Qed.

Section Uniform.
  Variables (v : bool) (g : raster) (k0 : R) (beta : R) (e : sfield) (mu : tensor) (S : vfield) (ar : R) (kappa : option R).
  Hypothesis Hs : solvable v g k0.
  Hypothesis Hmu : fits v mu.
  Hypothesis Hb : (0 < beta)%R.
  Variables (loss contrast high : R).
  Hypothesis Hl : (0 < loss)%R.
  Hypothesis He : forall p, inside (rshape g) p -> (loss <= snd (e p))%R.
  Hypothesis Hc0 : (0 <= contrast)%R.
  Hypothesis Hc : forall p, inside (rshape g) p -> (Cmod (e p - RtoC (ar * beta))%C <= contrast * beta)%R.
  Let n := (if v then 3 else 1)%nat.
  Let alpha := choose_alpha g e beta ar false kappa.
  Let o := prepare (scaled k0 g) v false alpha beta (TScalar e) tzero tzero mu S.
  Hypothesis Hh : (snd alpha <= high)%R.
  Variable E : vfield.
  Hypothesis HE : wave_equation v g k0 beta (TScalar e) E S.

  Lemma chosen_step F : (contrast + 5 / 100 <= high)%R ->
    (error n (rshape g) k0 (next_field o F) E <= factor beta loss contrast (contrast + 5 / 100) high * error n (rshape g) k0 F E)%R.
  Proof.
    intros Hch. pose proof (sigma_nonneg g e ar beta) as Hs0. pose proof (sigma_le g e ar beta contrast Hb Hc0 Hc) as Hs1.
    pose proof (bias_ge (ar, sigmaEE g e ar beta) kappa) as Hi. cbn [snd] in Hi. change (increased_bias (ar, sigmaEE g e ar beta) kappa) with (snd alpha) in Hi.
    set (sg := sigmaEE g e ar beta) in *.
    eapply Rle_trans; [apply (step_error v g k0 beta (TScalar e) mu S Hs I Hmu Hb loss sg (sg + 5 / 100) (Rmax high (sg + 5 / 100)))|].
    - apply absorbs_scalar. exact He.
    - lra.
    - apply Rmax_r.
    - exact HE.
    - exact Hl.
    - split; [exact Hi|]. eapply Rle_trans; [exact Hh|apply Rmax_l].
    - apply sigma_deviates. exact Hb.
    - apply Rmult_le_compat_r; [apply error_nonneg|]. unfold factor. apply sqrt_le_1_alt. unfold rate.
      rewrite Rmax_left by lra.
      assert (sg / (sg + 5 / 100) <= contrast / (contrast + 5 / 100))%R as H1.
      { apply Rmult_le_reg_r with (sg + 5 / 100)%R; [lra|]. apply Rmult_le_reg_r with (contrast + 5 / 100)%R; [lra|].
        replace (sg / (sg + 5 / 100) * (sg + 5 / 100) * (contrast + 5 / 100))%R with (sg * (contrast + 5 / 100))%R by (field; lra).
        replace (contrast / (contrast + 5 / 100) * (sg + 5 / 100) * (contrast + 5 / 100))%R with (contrast * (sg + 5 / 100))%R by (field; lra). nra. }
      assert (0 <= sg / (sg + 5 / 100))%R as H2 by (apply Rmult_le_pos; [assumption|left; apply Rinv_0_lt_compat; lra]).
      assert (Rmin (loss / (beta * high)) ((1 - contrast / (contrast + 5 / 100) * (contrast / (contrast + 5 / 100))) / 2) <=
        Rmin (loss / (beta * high)) ((1 - sg / (sg + 5 / 100) * (sg / (sg + 5 / 100))) / 2))%R; [|lra].
      apply Rle_min_compat_l. nra.
  Qed.
  Lemma chosen_error F m : (contrast + 5 / 100 <= high)%R ->
    (error n (rshape g) k0 (Nat.iter m (next_field o) F) E <= factor beta loss contrast (contrast + 5 / 100) high ^ m * error n (rshape g) k0 F E)%R.
  Proof.
    intros Hch. induction m as [|m IH]; [cbn; lra|]. cbn [Nat.iter nat_rect pow]. eapply Rle_trans; [apply chosen_step; assumption|].
    rewrite Rmult_assoc. apply Rmult_le_compat_l; [|exact IH]. unfold factor. apply sqrt_pos.
  Qed.
End Uniform.

Lemma pow_below r tol : (0 <= r < 1)%R -> (0 < tol)%R -> exists N, forall m, (N <= m)%nat -> (r ^ m <= tol)%R.
Proof.
  intros Hr Ht. destruct (pow_lt_1_zero r) with (y := tol) as (N & HN); [rewrite Rabs_pos_eq; lra|assumption|].
  exists N. intros m Hm. pose proof (HN m Hm) as H. apply Rabs_def2 in H. lra.
Qed.
Lemma uniform_iterations beta loss contrast high tol : (0 < beta)%R -> (0 < loss)%R -> (0 <= contrast)%R -> (contrast + 5 / 100 <= high)%R -> (0 < tol)%R ->
  exists N, forall v g k0 e mu S ar kappa E F m,
    solvable v g k0 -> fits v mu -> (forall p, inside (rshape g) p -> (loss <= snd (e p))%R) ->
    (forall p, inside (rshape g) p -> (Cmod (e p - RtoC (ar * beta))%C <= contrast * beta)%R) ->
    let alpha := choose_alpha g e beta ar false kappa in (snd alpha <= high)%R -> wave_equation v g k0 beta (TScalar e) E S -> (N <= m)%nat ->
    let n := (if v then 3 else 1)%nat in
    (error n (rshape g) k0 (Nat.iter m (next_field (prepare (scaled k0 g) v false alpha beta (TScalar e) tzero tzero mu S)) F) E <=
     tol * error n (rshape g) k0 F E)%R.
Proof.
  intros Hb Hl Hc Hh Ht. destruct (factor_range beta loss contrast (contrast + 5 / 100) high Hb Hl ltac:(lra) Hh) as (Hr & _).
  destruct (pow_below _ _ Hr Ht) as (N & HN). exists N. intros v g k0 e mu S ar kappa E F m Hs Hmu He Hcc alpha Ha HE Hm n.
  eapply Rle_trans; [apply (chosen_error v g k0 beta e mu S ar kappa Hs Hmu Hb loss contrast high Hl He Hc Hcc Ha E HE F m Hh)|].
  apply Rmult_le_compat_r; [apply error_nonneg|]. apply HN. exact Hm.
Qed.
