(** Proofs about the choice of alpha, and the theorems in SI units. *)
From Coq Require Import Reals Lra Lia List Arith Bool.
From Coquelicot Require Import Rbar Hierarchy Lim_seq Series.
Require Import Verif.Base Verif.Cplx Verif.CSum Verif.Field Verif.Fourier_Model Verif.Fourier_Spec Verif.Fourier_Proofs.
Require Import Verif.Vec_Model Verif.Vec_Spec Verif.Vec_Proofs Verif.Solver_Model Verif.Solver_Spec Verif.Solver_Proofs.
Require Import Verif.Solver_Convergence Verif.Solver_Limit.
Import ListNotations.
Local Open Scope R_scope.
Local Open Scope C_scope.

Lemma rmax_ge n f i : (i < n)%nat -> (f i <= rmax n f)%R.
Proof.
  induction n as [|n IH]; intros Hi; [lia|]. cbn [rmax]. destruct (Nat.eq_dec i n) as [->|Hne]; [apply Rmax_r|].
  eapply Rle_trans; [apply IH; lia|apply Rmax_l].
Qed.
Lemma rmax_over_ge s F p : inside s p -> (F p <= rmax_over s F)%R.
Proof.
  intros Hp. revert F. induction Hp as [|m i s' p Hi Hp IH]; intros F; cbn [rmax_over]; [apply Rmax_r|].
  eapply Rle_trans; [apply (IH (fun p => F (i :: p)))|]. apply (rmax_ge m (fun i => rmax_over s' (fun p => F (i :: p)))). assumption.
Qed.
Lemma delta_beta2_mod ar beta e : Cmod (delta_beta2 ar beta e) = (Cmod (e - RtoC (ar * beta))%C * Cmod (e - RtoC (ar * beta))%C)%R.
Proof.
  assert (delta_beta2 ar beta e = RtoC (Cmod (e - RtoC (ar * beta))%C * Cmod (e - RtoC (ar * beta))%C)) as ->.
  - rewrite <- Cmult_conj. unfold delta_beta2. rewrite Cmod_R, <- Rabs_mult, (Rabs_pos_eq (_ * _)) by nra. generalize (ar * beta)%R. intros x.
    rewrite Cconj_minus, Cconj_R, RtoC_mult. ring.
  - rewrite Cmod_R. apply Rabs_pos_eq. pose proof (Cmod_ge_0 (e - RtoC (ar * beta))). nra.
Qed.
Lemma sigma_nonneg g e ar beta : (0 <= sigmaEE g e ar beta)%R.
Proof.
  unfold sigmaEE. destruct (Req_dec beta 0) as [->|Hb].
  - rewrite Rabs_R0. unfold Rdiv. rewrite Rinv_0. lra.
  - apply Rmult_le_pos; [apply sqrt_pos|]. left. apply Rinv_0_lt_compat, Rabs_pos_lt. assumption.
Qed.
Lemma sigma_bounds g e ar beta p : inside (rshape g) p -> (0 < beta)%R ->
  (Cmod (e p / RtoC beta - RtoC ar)%C <= sigmaEE g e ar beta)%R.
Proof.
  intros Hp Hb. unfold sigmaEE. rewrite (Rabs_pos_eq beta) by lra.
  replace (e p / RtoC beta - RtoC ar) with ((e p - RtoC (ar * beta)) / RtoC beta) by (rewrite RtoC_mult; field; apply RtoC_neq; lra).
  rewrite Cmod_div by (apply RtoC_neq; lra). rewrite Cmod_R, (Rabs_pos_eq beta) by lra.
  apply Rmult_le_compat_r; [left; apply Rinv_0_lt_compat; lra|].
  rewrite <- (sqrt_Rsqr (Cmod (e p - RtoC (ar * beta)))) by apply Cmod_ge_0. apply sqrt_le_1_alt. unfold Rsqr. rewrite <- delta_beta2_mod.
  apply (rmax_over_ge (rshape g) (fun p => Cmod (delta_beta2 ar beta (e p))) p Hp).
Qed.
Lemma deviates_mono n s eps beta ar r r' : (0 <= r <= r')%R -> deviates n s eps beta ar r -> deviates n s eps beta ar r'.
Proof.
  intros Hr H p u Hp. eapply Rle_trans; [apply (H p u Hp)|]. apply Rmult_le_compat_r; [|nra].
  apply rsum_nonneg. intros i _. pose proof (Cmod_ge_0 (u i)). nra.
Qed.
Lemma sigma_deviates n g e ar beta : (0 < beta)%R -> deviates n (rshape g) (TScalar e) beta ar (sigmaEE g e ar beta).
Proof.
  intros Hb p u Hp. rewrite <- rsum_scal. apply rsum_le. intros i _. cbn [tapply].
  replace (e p * u i / RtoC beta - RtoC ar * u i) with ((e p / RtoC beta - RtoC ar) * u i) by (unfold Cdiv; ring).
  rewrite Cmod_mult. pose proof (sigma_bounds g e ar beta p Hp Hb) as H. pose proof (Cmod_ge_0 (e p / RtoC beta - RtoC ar)).
  set (a := Cmod (e p / RtoC beta - RtoC ar)) in *. set (b := Cmod (u i)).
  replace (a * b * (a * b))%R with (a * a * (b * b))%R by ring. apply Rmult_le_compat_r; [nra|]. apply Rmult_le_compat; lra.
Qed.
Lemma bias_ge alpha kappa : (snd alpha + 5 / 100 <= increased_bias alpha kappa)%R.
Proof. unfold increased_bias. destruct kappa as [k|]; [|lra]. destruct (Rlt_dec _ _); lra. Qed.

(** The chosen alpha exceeds the deviation of the medium by at least 0.05. *)
Lemma choose_alpha_bias g e beta ar kappa : (0 < beta)%R ->
  exists rho, (0 <= rho < 1)%R /\ (0 < snd (choose_alpha g e beta ar false kappa))%R /\
  fst (choose_alpha g e beta ar false kappa) = ar /\
  forall n, deviates n (rshape g) (TScalar e) beta ar (rho * snd (choose_alpha g e beta ar false kappa)).
Proof.
  intros Hb. pose proof (sigma_nonneg g e ar beta) as Hs. set (s := sigmaEE g e ar beta) in *.
  pose proof (bias_ge (ar, s) kappa) as Hi. cbn [snd] in Hi. set (ai := increased_bias (ar, s) kappa) in *.
  exists (s / ai)%R. assert (choose_alpha g e beta ar false kappa = (ar, ai)) as -> by reflexivity. cbn [fst snd].
  assert (0 < ai)%R as Hp by lra. repeat split.
  - apply Rmult_le_pos; [assumption|]. left. apply Rinv_0_lt_compat. assumption.
  - apply Rmult_lt_reg_r with ai; [assumption|]. unfold Rdiv. rewrite Rmult_assoc, Rinv_l; lra.
  - assumption.
  - intros n. replace (s / ai * ai)%R with s by (field; lra). apply sigma_deviates. assumption.
Qed.

Lemma absorbs_scalar n s e c : (forall p, inside s p -> (c <= snd (e p))%R) -> absorbs n s (TScalar e) c.
Proof.
  intros H p u Hp. cbn [tapply].
  assert (snd (csum n (fun i => Cmult (Cconj (u i)) (Cmult (e p) (u i)))) = snd (e p) * rsum n (fun i => Cmod (u i) * Cmod (u i)))%R as ->.
  - induction n as [|n IH]; cbn [csum rsum]; [cbn; ring|]. unfold Cplus at 1. cbn [snd]. rewrite IH, Cmod_sq.
    generalize (rsum n (fun i => Cmod (u i) * Cmod (u i))%R). intros x. destruct (u n) as [a b], (e p) as [c' d]. cbn. ring.
  - apply Rmult_le_compat_r; [|apply H; assumption]. apply rsum_nonneg. intros i _. pose proof (Cmod_ge_0 (u i)). nra.
Qed.

(** chi maps only zero to zero if the deviation is less than alpha_i. *)
Lemma chi_injective v g alpha beta eps mu S rho : (v = true -> (rndim g <= 3)%nat) -> (0 < snd alpha)%R -> (0 < beta)%R -> fits v eps -> fits v mu ->
  (0 <= rho < 1)%R -> deviates (if v then 3 else 1) (rshape g) eps beta (fst alpha) (rho * snd alpha) ->
  injective (rshape g) (o_chiEE (prepare g v false alpha beta eps tzero tzero mu S)).
Proof.
  intros Hn Ha Hb Hf Hm Hr Hd p Hp. set (o := prepare g v false alpha beta eps tzero tzero mu S).
  assert (forall u : nat -> C, (forall i, (i < if v then 3 else 1)%nat -> tapply (o_chiEE o) (fun j _ => u j) i p = 0) ->
     forall j, (j < if v then 3 else 1)%nat -> u j = 0) as Hinj.
  { intros u Hu. set (n := (if v then 3 else 1)%nat) in *.
    assert (forall i, (i < n)%nat -> tapply eps (fun j _ => u j) i p / RtoC beta - RtoC (fst alpha) * u i = Ci * im alpha * u i) as HW.
    { intros i Hi. pose proof (pa_chi v g alpha beta eps mu S Hn Ha Hb Hf (fun j _ => u j) i p Hi) as H. cbn beta in H.
      change (chi_op (prepare g v false alpha beta eps tzero tzero mu S) (fun j _ => u j) i p) with (tapply (o_chiEE o) (fun j _ => u j) i p) in H.
      rewrite Hu in H by assumption. assert (im alpha <> 0) as Hi0 by (apply im_neq; lra). pose proof Ci_neq.
      set (y := tapply eps (fun j _ => u j) i p / RtoC beta - RtoC (fst alpha) * u i) in *.
      transitivity (im alpha / Ci * (u i + Ci / im alpha * y) - im alpha / Ci * u i); [field; auto|]. rewrite <- H.
      transitivity ((Ci * Ci) * im alpha / Ci * u i); [rewrite Ci_sq; unfold Cdiv; ring|]. field. auto. }
    specialize (Hd p u Hp). fold n in Hd.
    rewrite (rsum_ext n (fun i => Cmod (tapply eps (fun j _ => u j) i p / RtoC beta - RtoC (fst alpha) * u i)%C *
                      Cmod (tapply eps (fun j _ => u j) i p / RtoC beta - RtoC (fst alpha) * u i)%C)%R
                      (fun i => (snd alpha * snd alpha) * (Cmod (u i) * Cmod (u i)))%R) in Hd.
    - rewrite rsum_scal in Hd. set (N := rsum n (fun i => (Cmod (u i) * Cmod (u i))%R)) in *.
      assert (forall i, (i < n)%nat -> (0 <= Cmod (u i) * Cmod (u i))%R) as Hpos by (intros i _; pose proof (Cmod_ge_0 (u i)); nra).
      assert (0 <= N)%R as HN by (apply rsum_nonneg; exact Hpos).
      assert (N = 0)%R as HN0.
      { assert (0 < snd alpha * snd alpha)%R as Haa by nra. assert (rho * rho < 1)%R by nra.
        assert (snd alpha * snd alpha * N <= snd alpha * snd alpha * (rho * rho * N))%R as H1 by (eapply Rle_trans; [exact Hd|]; apply Req_le; ring).
        apply Rmult_le_reg_l in H1; [|exact Haa]. nra. }
      intros j Hj. apply Cmod_eq_0. pose proof (rsum_nonneg_zero n _ Hpos HN0 j Hj) as H0. cbn beta in H0. nra.
    - intros i Hi. rewrite HW, !Cmod_mult by assumption. unfold im. rewrite Cmod_R, (Rabs_pos_eq (snd alpha)) by lra.
      replace (Cmod Ci) with 1%R; [ring|]. unfold Cmod. cbn. replace (0 * (0 * 1) + 1 * (1 * 1))%R with 1%R by ring. rewrite sqrt_1. reflexivity. }
  assert (fits v (o_chiEE o)) as Hf' by (unfold o; destruct eps, mu; cbn; auto).
  destruct (o_chiEE o) as [f|m]; cbn [tapply] in Hinj.
  - intros E0. apply (RtoC_neq 1 R1_neq_R0). apply (Hinj (fun _ => 1)) with (j := 0%nat).
    + intros i _. rewrite E0. ring.
    + destruct v; lia.
  - cbn in Hf'. rewrite Hf' in Hinj. exact Hinj.
Qed.

(** ** In SI units *)
Lemma reads_field k0 F c p : k0 <> 0%R -> (fun c p => RtoC (k0 * k0) * electric_field k0 F c p) c p = F c p.
Proof. intros Hk. unfold electric_field. field. apply RtoC_neq. apply Rmult_integral_contrapositive. split; assumption. Qed.

Section SI.
  Variables (v : bool) (g : raster) (k0 : R) (alpha : C) (beta : R) (eps mu : tensor) (S : vfield).
  Hypothesis Hs : solvable v g k0.
  Hypothesis Hf : fits v eps.
  Hypothesis Hmu : fits v mu.
  Let o := prepare (scaled k0 g) v false alpha beta eps tzero tzero mu S.
  Let n := (if v then 3 else 1)%nat.

  Lemma fixed_point_wave F : snd alpha <> 0%R -> beta <> 0%R -> injective (rshape g) (o_chiEE o) ->
    (vagree n (rshape g) (update o F) (fun _ _ => 0) <-> wave_equation v g k0 beta eps (electric_field k0 F) S).
  Proof.
    intros Ha Hb Hi. pose proof Hs as (Hg & Hk & Hn).
    set (F' := fun c p => RtoC (k0 * k0) * electric_field k0 F c p).
    assert (F' = F) as HF.
    { apply FunctionalExtensionality.functional_extensionality. intros c. apply FunctionalExtensionality.functional_extensionality. intros p.
      apply (reads_field k0 F c p Hk). }
    split; intros H.
    - apply (wave_of_update_zero v g k0 alpha beta eps mu (electric_field k0 F) S Hs Ha Hb Hf Hmu Hi). fold F'. rewrite HF. exact H.
    - pose proof (update_zero_of_wave v g k0 alpha beta eps mu (electric_field k0 F) S Hs Ha Hb Hf Hmu H) as H'. fold F' in H'. rewrite HF in H'. exact H'.
  Qed.

  Hypothesis Ha : (0 < snd alpha)%R.
  Hypothesis Hb : (0 < beta)%R.
  Variables (loss rho : R).
  Hypothesis Hloss : absorbs n (rshape g) eps loss.
  Hypothesis Hrho : deviates n (rshape g) eps beta (fst alpha) (rho * snd alpha).
  Hypothesis Hrho0 : (0 <= rho < 1)%R.

  Lemma si_grid : proper (scaled k0 g).
  Proof. destruct Hs as (Hg & Hk & _). apply scaled_proper; assumption. Qed.
  Lemma si_ndim : v = true -> (rndim (scaled k0 g) <= 3)%nat.
  Proof. destruct Hs as (_ & _ & Hn). exact Hn. Qed.
  Lemma si_injective : injective (rshape g) (o_chiEE o).
  Proof. exact (chi_injective v (scaled k0 g) alpha beta eps mu S rho si_ndim Ha Hb Hf Hmu Hrho0 Hrho). Qed.
  Lemma si_fixed F : vagree n (rshape g) (update o F) (fun _ _ => 0) <-> wave_equation v g k0 beta eps (electric_field k0 F) S.
  Proof. apply fixed_point_wave; [lra|lra|exact si_injective]. Qed.

  Lemma electric_minus F E c p : k0 <> 0%R -> F c p - RtoC (k0 * k0) * E c p = RtoC (k0 * k0) * (electric_field k0 F c p - E c p).
  Proof. intros Hk. unfold electric_field. field. apply RtoC_neq, Rmult_integral_contrapositive. split; assumption. Qed.
  Lemma electric_norm F E : k0 <> 0%R -> vnorm2 n (rshape g) (fun c p => F c p - RtoC (k0 * k0) * E c p)%C =
    (k0 * k0 * (k0 * k0) * vnorm2 n (rshape g) (fun c p => electric_field k0 F c p - E c p)%C)%R.
  Proof.
    intros Hk. rewrite (vagree_vnorm2 n (rshape g) _ (fun c p => RtoC (k0 * k0) * (electric_field k0 F c p - E c p))) by (intros c p _ _; apply electric_minus; assumption).
    rewrite vnorm2_scal, Cmod_R, Rabs_pos_eq by nra. reflexivity.
  Qed.

  Lemma si_corrections F : (0 <= loss)%R -> (vnorm2 n (rshape g) (update o (next_field o F)) <= vnorm2 n (rshape g) (update o F))%R.
  Proof.
    intros Hl. exact (corrections_nonincreasing v (scaled k0 g) alpha beta eps mu S si_grid si_ndim Ha Hb Hf loss rho Hloss Hl Hrho (proj1 Hrho0) F ltac:(lra)).
  Qed.

  Lemma si_scaled_back E : k0 <> 0%R -> electric_field k0 (fun c p => RtoC (k0 * k0) * E c p) = E.
  Proof.
    intros Hk. apply FunctionalExtensionality.functional_extensionality. intros c. apply FunctionalExtensionality.functional_extensionality. intros p.
    unfold electric_field. field. apply RtoC_neq, Rmult_integral_contrapositive. split; assumption.
  Qed.
  Lemma si_error F E : (0 <= loss)%R -> wave_equation v g k0 beta eps E S ->
    (vnorm2 n (rshape g) (fun c p => electric_field k0 (next_field o F) c p - E c p)%C <=
     vnorm2 n (rshape g) (fun c p => electric_field k0 F c p - E c p)%C)%R.
  Proof.
    intros Hl HE. pose proof Hs as (Hg & Hk & Hn).
    pose proof (distance_nonincreasing v (scaled k0 g) alpha beta eps mu S si_grid si_ndim Ha Hb Hf loss rho Hloss Hl Hrho (proj1 Hrho0) F
      (fun c p => RtoC (k0 * k0) * E c p) ltac:(lra)) as H. fold o in H. change (rshape (scaled k0 g)) with (rshape g) in H.
    assert (vagree n (rshape g) (next_field o (fun c p => RtoC (k0 * k0) * E c p)) (fun c p => RtoC (k0 * k0) * E c p)) as Hfix.
    { intros c p Hc Hp. unfold next_field. rewrite (proj2 (si_fixed (fun c p => RtoC (k0 * k0) * E c p))); [ring| |assumption|assumption].
      rewrite si_scaled_back by assumption. exact HE. }
    rewrite (vagree_vnorm2 n (rshape g) _ (fun c p => next_field o F c p - RtoC (k0 * k0) * E c p)) in H
      by (intros c p Hc Hp; rewrite (Hfix c p Hc Hp); reflexivity).
    fold n in H. rewrite !electric_norm in H by assumption. assert (0 < k0 * k0)%R by nra. apply Rmult_le_reg_l in H; [exact H|nra].
  Qed.

  Lemma si_rate F E m : (0 <= loss)%R -> wave_equation v g k0 beta eps E S ->
    (INR (Datatypes.S m) * vnorm2 n (rshape g) (update o (Nat.iter m (next_field o) F)) <=
     4 / (1 - rho * rho) * vnorm2 n (rshape g) (fun c p => F c p - RtoC (k0 * k0) * E c p)%C)%R.
  Proof.
    intros Hl HE. pose proof Hs as (Hg & Hk & Hn).
    apply (updates_rate v (scaled k0 g) alpha beta eps mu S si_grid si_ndim Ha Hb Hf loss rho Hloss Hl Hrho (proj1 Hrho0) F
      (fun c p => RtoC (k0 * k0) * E c p) m (proj2 Hrho0)).
    apply (proj2 (si_fixed (fun c p => RtoC (k0 * k0) * E c p))). rewrite si_scaled_back by assumption. exact HE.
  Qed.

  Lemma si_converges (F : vfield) : (0 < loss)%R -> exists (E : vfield) (q : R), (0 <= q < 1)%R /\ wave_equation v g k0 beta eps E S /\
    (forall E', wave_equation v g k0 beta eps E' S -> vagree n (rshape g) E' E) /\
    forall m, (vnorm2 n (rshape g) (fun c p => electric_field k0 (Nat.iter m (next_field o) F) c p - E c p)%C <=
               q ^ m * vnorm2 n (rshape g) (fun c p => electric_field k0 F c p - E c p)%C)%R.
  Proof.
    intros Hl. pose proof Hs as (Hg & Hk & Hn).
    assert (0 < loss / (beta * snd alpha))%R as Hq by (apply Rmult_lt_0_compat; [assumption|apply Rinv_0_lt_compat; nra]).
    assert (0 < 1 - rho * rho)%R as Hr by nra.
    set (k := Rmin (2 * (loss / (beta * snd alpha))) (1 - rho * rho)).
    assert (k <= 2 * (loss / (beta * snd alpha)))%R as Hk1 by apply Rmin_l. assert (k <= 1 - rho * rho)%R as Hk2 by apply Rmin_r.
    assert (0 < k)%R as Hk0 by (apply Rmin_glb_lt; lra).
    pose proof (limit_fixed v (scaled k0 g) alpha beta eps mu S si_grid si_ndim Ha Hb Hf loss rho Hloss (Rlt_le _ _ Hl) Hrho (proj1 Hrho0) k Hk1 Hk2 Hk0 F) as HL.
    set (L := limit v (scaled k0 g) alpha beta eps mu S F) in HL.
    exists (electric_field k0 L), (1 - k / 2)%R. assert (k <= 1)%R by nra. repeat split; try lra.
    - apply si_fixed. exact HL.
    - intros E' HE'. 
      assert (vagree n (rshape g) (update o (fun c p => RtoC (k0 * k0) * E' c p)) (fun _ _ => 0)) as H'.
      { apply (proj2 (si_fixed (fun c p => RtoC (k0 * k0) * E' c p))). rewrite si_scaled_back by assumption. exact HE'. }
      pose proof (fixed_unique v (scaled k0 g) alpha beta eps mu S si_grid si_ndim Ha Hb Hf loss rho Hloss Hrho k Hk1 Hk2 Hk0 _ _ H' HL) as HU.
      intros c p Hc Hp. unfold electric_field. rewrite <- (HU c p Hc Hp). field. apply RtoC_neq, Rmult_integral_contrapositive. split; assumption.
    - intros m. pose proof (error_geometric v (scaled k0 g) alpha beta eps mu S si_grid si_ndim Ha Hb Hf loss rho Hloss Hrho k Hk1 Hk2 Hk0 F L m HL) as HE.
      change (rshape (scaled k0 g)) with (rshape g) in HE. fold n in HE.
      change (iterate v (scaled k0 g) alpha beta eps mu S m F) with (Nat.iter m (next_field o) F) in HE.
      assert (forall X, vnorm2 n (rshape g) (fun c p => X c p - L c p)%C =
        (k0 * k0 * (k0 * k0) * vnorm2 n (rshape g) (fun c p => electric_field k0 X c p - electric_field k0 L c p)%C)%R) as HN.
      { intros X. rewrite <- electric_norm by assumption. apply vagree_vnorm2. intros c p _ _. f_equal. f_equal. symmetry. apply (reads_field k0 L c p Hk). }
      rewrite !HN in HE. assert (0 < k0 * k0)%R by nra.
      apply Rmult_le_reg_l with (k0 * k0 * (k0 * k0))%R; [nra|]. eapply Rle_trans; [exact HE|]. apply Req_le. ring.
  Qed.
End SI.

(** ** Histories of alpha *)
Lemma last_neq (alpha : C) l : snd alpha <> 0%R -> Forall (fun a : C => snd a <> 0%R) l -> snd (last l alpha) <> 0%R.
Proof.
  intros Ha Hl. revert alpha Ha. induction Hl as [|a l Hal Hl IH]; intros alpha Ha; [exact Ha|]. rewrite last_cons_default. apply IH. assumption.
Qed.
Lemma source_history g v magnetic alpha beta eps xi zeta mu S alphas c p :
  snd alpha <> 0%R -> beta <> 0%R -> Forall (fun a => snd a <> 0%R) alphas ->
  source_distribution (fold_left update_operators alphas (prepare g v magnetic alpha beta eps xi zeta mu S)) c p = S c p.
Proof.
  intros Ha Hb Hl. rewrite update_history by assumption. pose proof (last_neq alpha alphas Ha Hl) as Ha'.
  rewrite prepare_precondition by assumption. unfold source_distribution. cbn [o_source o_beta o_alpha precondition]. field.
  repeat split; auto with cneq.
Qed.
Lemma equation_history v g k0 alpha beta eps mu S alphas F :
  solvable v g k0 -> fits v eps -> fits v mu -> snd alpha <> 0%R -> beta <> 0%R -> Forall (fun a => snd a <> 0%R) alphas ->
  let o := fold_left update_operators alphas (prepare (scaled k0 g) v false alpha beta eps tzero tzero mu S) in
  injective (rshape g) (o_chiEE o) ->
  (vagree (if v then 3 else 1) (rshape g) (update o F) (fun _ _ => 0) <->
   wave_equation v g k0 beta eps (electric_field k0 F) S).
Proof.
  intros Hs Hf Hm Ha Hb Hl. rewrite update_history by assumption. intros o Hi.
  apply fixed_point_wave; try assumption. apply last_neq; assumption.
Qed.
