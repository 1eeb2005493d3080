(** Proofs about the convergence of the modified Born series in passive media. *)
From Coq Require Import Reals Lra Lia List Arith Bool.
Require Import Verif.Base Verif.Cplx Verif.CSum Verif.Field Verif.Fourier_Model Verif.Fourier_Spec Verif.Fourier_Proofs.
Require Import Verif.Vec_Model Verif.Vec_Spec Verif.Vec_Proofs Verif.Solver_Model Verif.Solver_Spec Verif.Solver_Proofs.
Import ListNotations.
Local Open Scope R_scope.
Local Open Scope C_scope.

(** ** Inner products of vector fields *)
Lemma vip_plus_r n s F G H : vip n s F (fun c p => G c p + H c p) = vip n s F G + vip n s F H.
Proof. exact (ip_plus_r (n :: s) (flat F) (flat G) (flat H)). Qed.
Lemma vip_plus_l n s F G H : vip n s (fun c p => F c p + G c p) H = vip n s F H + vip n s G H.
Proof. exact (ip_plus_l (n :: s) (flat F) (flat G) (flat H)). Qed.
Lemma vip_minus_r n s F G H : vip n s F (fun c p => G c p - H c p) = vip n s F G - vip n s F H.
Proof. exact (ip_minus_r (n :: s) (flat F) (flat G) (flat H)). Qed.
Lemma vip_scal_r n s a F G : vip n s F (fun c p => a * G c p) = a * vip n s F G.
Proof. exact (ip_scal_r (n :: s) a (flat F) (flat G)). Qed.
Lemma vip_conj n s F G : Cconj (vip n s F G) = vip n s G F.
Proof. exact (ip_conj (n :: s) (flat F) (flat G)). Qed.
Lemma vnorm2_nonneg n s F : (0 <= vnorm2 n s F)%R.
Proof. exact (norm2_nonneg (n :: s) (flat F)). Qed.
Lemma vnorm2_scal n s a F : vnorm2 n s (fun c p => a * F c p) = (Cmod a * Cmod a * vnorm2 n s F)%R.
Proof. exact (norm2_scal (n :: s) a (flat F)). Qed.
Lemma vnorm2_zero n s F : vnorm2 n s F = 0%R -> vagree n s F (fun _ _ => 0).
Proof.
  intros H c p Hc Hp. apply (norm2_zero (n :: s) (flat F) H (c :: p)). constructor; assumption.
Qed.
Lemma vnorm2_zero_field n s : vnorm2 n s (fun _ _ => 0) = 0%R.
Proof.
  pose proof (vnorm2_scal n s 0 (fun _ _ => 0)) as H. cbn beta in H. rewrite Cmod_0 in H.
  rewrite (vagree_vnorm2 n s (fun _ _ => 0) (fun _ _ => 0 * 0)) by (intros c p _ _; ring). rewrite H. ring.
Qed.
Lemma vnorm2_minus n s F G : vnorm2 n s (fun c p => F c p - G c p) = (vnorm2 n s F + vnorm2 n s G - 2 * fst (vip n s F G))%R.
Proof.
  rewrite (vagree_vnorm2 n s _ (fun c p => F c p + - (1) * G c p)) by (intros c p _ _; ring).
  rewrite vnorm2_plus, vnorm2_scal, vip_scal_r. rewrite Cmod_opp, Cmod_1. cbn. ring.
Qed.
Lemma vnorm2_sum_le n s (F G : vfield) : (vnorm2 n s (fun c p => F c p + G c p)%C <= 2 * vnorm2 n s F + 2 * vnorm2 n s G)%R.
Proof.
  pose proof (vnorm2_nonneg n s (fun c p => F c p - G c p)) as H. rewrite vnorm2_minus in H. rewrite vnorm2_plus. lra.
Qed.
Lemma vip_points n s F G : vip n s F G = sum_over s (fun p => csum n (fun c => Cconj (F c p) * G c p)).
Proof. apply vip_swap. Qed.
Lemma vnorm2_points n s F : vnorm2 n s F = rsum_over s (fun p => rsum n (fun c => (Cmod (F c p) * Cmod (F c p))%R)).
Proof.
  apply RtoC_inj. rewrite <- vnorm2_vip, vip_points, <- sum_over_RtoC. apply sum_over_ext. intros p _. rewrite <- csum_RtoC.
  apply csum_ext. intros c _. apply Cmult_conj.
Qed.

(** Convolutions whose kernels are each other's adjoint. *)
Lemma vip_vft n s F G : nonempty s -> RtoC (INR (points s)) * vip n s F G = vip n s (vft s F) (vft s G).
Proof.
  intros Hs. rewrite vip_vift with (F := vft s F) (G := vft s G) by assumption. f_equal. apply vagree_vip; intros c p Hc Hp; symmetry;
  apply ift_ft; assumption.
Qed.
Lemma vft_convolve_s s op F c k : inside s k -> vft s (convolve s op F) c k = op (vft s F) c k.
Proof. intros Hk. unfold vft at 1, convolve, vift. apply ft_ift. assumption. Qed.
Lemma convolve_adjoint s n op1 op2 F G : nonempty s ->
  (forall F G k, inside s k -> csum n (fun c => Cconj (F c k) * op1 G c k) = csum n (fun c => Cconj (op2 F c k) * G c k)) ->
  vip n s F (convolve s op1 G) = vip n s (convolve s op2 F) G.
Proof.
  intros Hs H. pose proof (points_neq_0 _ Hs) as HP.
  assert (RtoC (INR (points s)) * vip n s F (convolve s op1 G) = RtoC (INR (points s)) * vip n s (convolve s op2 F) G) as E.
  - rewrite !vip_vft, !vip_points by assumption. apply sum_over_ext. intros k Hk.
    rewrite (csum_ext _ _ (fun c => Cconj (vft s F c k) * op1 (vft s G) c k)) by (intros; rewrite vft_convolve_s by assumption; reflexivity).
    rewrite H by assumption. apply csum_ext. intros c _. rewrite vft_convolve_s by assumption. reflexivity.
  - transitivity (/ RtoC (INR (points s)) * (RtoC (INR (points s)) * vip n s F (convolve s op1 G))); [field; assumption|].
    rewrite E. field. assumption.
Qed.

Lemma curl_self_adjoint g F G : proper g -> (rndim g <= 3)%nat ->
  vip 3 (rshape g) F (curl g 3 G) = vip 3 (rshape g) (curl g 3 F) G.
Proof.
  intros Hg Hn. apply convolve_adjoint; [apply Hg|]. intros F' G' k Hk. cbn [csum]. rewrite !curl_ft_cross by (assumption || lia).
  unfold cross3. rewrite !Cconj_mult, !Cconj_minus, !Cconj_mult, !Cconj_R, Cconj_Ci. ring.
Qed.
Lemma curl_curl_form v g u n : proper g -> (v = true -> (rndim g <= 3)%nat) -> n = (if v then 3 else 1)%nat ->
  snd (vip n (rshape g) u (curl_curl_op v g u)) = 0%R.
Proof.
  intros Hg Hn ->. unfold curl_curl_op. destruct v.
  - rewrite curl_self_adjoint by auto. rewrite vnorm2_vip. reflexivity.
  - rewrite (vagree_vip 1 (rshape g) u _ u (fun c p => - (1) * laplacian g u c p)) by (intros c p _ _; ring). rewrite vip_scal_r.
    assert (vip 1 (rshape g) u (laplacian g u) = Cconj (vip 1 (rshape g) u (laplacian g u))) as E.
    + rewrite vip_conj. unfold laplacian. apply convolve_adjoint; [apply Hg|]. intros F G k Hk. apply csum_ext. intros c _.
      rewrite Cconj_mult, Cconj_R. ring.
    + apply (f_equal snd) in E. generalize dependent (vip 1 (rshape g) u (laplacian g u)). intros [a b] E. cbn in *. lra.
Qed.

(** ** The energy balance of one correction *)
Section Passive.
  Variables (v : bool) (g : raster) (alpha : C) (beta : R) (eps mu : tensor) (S : vfield).
  Hypothesis Hg : proper g.
  Hypothesis Hn : v = true -> (rndim g <= 3)%nat.
  Hypothesis Ha : (0 < snd alpha)%R.
  Hypothesis Hb : (0 < beta)%R.
  Hypothesis Hf : fits v eps.
  Let o := prepare g v false alpha beta eps tzero tzero mu S.
  Let n := (if v then 3 else 1)%nat.
  Let s := rshape g.
  (** The deviation of the medium from the background. *)
  Let W (F : vfield) : vfield := fun c p => Ci / im alpha * (tapply eps F c p / RtoC beta - RtoC (fst alpha) * F c p).
  (** The linear part of the iteration. *)
  Let M (F : vfield) : vfield := fun c p => F c p + chi_op o (fun c p => green_op o (chi_op o F) c p - F c p) c p.

  Lemma pa_ai : snd alpha <> 0%R.
  Proof. lra. Qed.
  Lemma pa_b : beta <> 0%R.
  Proof. lra. Qed.
  Lemma pa_fine : fine o.
  Proof. repeat split; try apply Hg; try exact pa_ai; exact Hn. Qed.
  Lemma pa_n3 : (n <= 3)%nat.
  Proof. unfold n. destruct v; lia. Qed.

  Lemma pa_chi F c p : (c < n)%nat -> chi_op o F c p = F c p + W F c p.
  Proof.
    intros Hc. unfold o. rewrite prepare_precondition by (apply pa_ai || apply pa_b). unfold chi_op. cbn [o_magnetic precondition].
    rewrite (chiEE_apply _ _ _ _ _ _ _ _ _ _ _ n Hc pa_n3 pa_ai pa_b). unfold W.
    transitivity (Ci / im alpha * (tapply eps F c p / RtoC beta - RtoC (fst alpha) * F c p) - (Ci * Ci) * F c p); [|rewrite Ci_sq; ring].
    replace alpha with (RtoC (fst alpha) + Ci * im alpha) at 2 by (unfold im; apply C_eq; cbn; ring).
    field. split; [apply RtoC_neq, pa_b|apply im_neq, pa_ai].
  Qed.

  Lemma tapply_plus t F G c p : tapply t (fun c p => F c p + G c p) c p = tapply t F c p + tapply t G c p.
  Proof. destruct t; cbn [tapply]; [ring|]. rewrite <- csum_plus. apply csum_ext. intros; ring. Qed.
  Lemma W_plus F G c p : W (fun c p => F c p + G c p) c p = W F c p + W G c p.
  Proof. unfold W. rewrite tapply_plus. unfold Cdiv. ring. Qed.
  Lemma W_vagree F G : vagree n s F G -> vagree n s (W F) (W G).
  Proof.
    intros H c p Hc Hp. unfold W. rewrite (H c p Hc Hp). do 2 f_equal. unfold Cdiv. f_equal.
    apply (tapply_vagree n s); try assumption. unfold n. unfold fits in Hf. destruct eps; [right; exact I|left]. rewrite Hf. reflexivity.
  Qed.

  Section Step.
    Variable e : vfield.
    Let u := green_op o (chi_op o e).
    Let d : vfield := fun c p => e c p - u c p.

    (** d + W d = (i / alpha_i) (D u - eps u / beta). *)
    Lemma correction : vagree n s (chi_op o d)
      (fun c p => Ci / im alpha * (curl_curl_op v g u c p - tapply eps u c p / RtoC beta)).
    Proof.
      intros c p Hc Hp.
      assert (ginv o u c p = chi_op o e c p) as H1 by (apply (ginv_green o (chi_op o e) pa_fine c p Hc Hp)).
      rewrite (ginv_real o u pa_fine c p Hc Hp) in H1. change (o_alpha o) with alpha in H1. change (o_grid o) with g in H1.
      change (o_vectorial o) with v in H1. rewrite pa_chi in H1 by assumption. rewrite pa_chi by assumption.
      assert (vagree n s e (fun c p => u c p + d c p)) as He by (intros c' p' _ _; unfold d; ring).
      rewrite (W_vagree _ _ He c p Hc Hp), W_plus, (He c p Hc Hp) in H1.
      transitivity (u c p + d c p + (W u c p + W d c p) - u c p - W u c p); [ring|]. rewrite <- H1. unfold W.
      transitivity (Ci / im alpha * (curl_curl_op v g u c p - tapply eps u c p / RtoC beta)
                    - (Ci * (alpha - RtoC (fst alpha)) / im alpha + 1) * u c p).
      - unfold Cdiv. ring.
      - replace (alpha - RtoC (fst alpha)) with (Ci * im alpha) by (unfold im; apply C_eq; cbn; ring).
        replace (Ci * (Ci * im alpha) / im alpha) with (Ci * Ci) by (field; apply im_neq, pa_ai). rewrite Ci_sq. ring.
    Qed.

    Lemma re_u_chi_d : fst (vip n s u (chi_op o d)) = (snd (vip n s u (tapply eps u)) / (beta * snd alpha))%R.
    Proof.
      rewrite (vagree_vip n s u _ u _ (fun c p _ _ => eq_refl) correction).
      rewrite (vagree_vip n s u _ u (fun c p => Ci / im alpha * (curl_curl_op v g u c p - / RtoC beta * tapply eps u c p))
        (fun c p _ _ => eq_refl)) by (intros c p _ _; unfold Cdiv; ring).
      rewrite vip_scal_r, vip_minus_r, vip_scal_r.
      pose proof (curl_curl_form v g u n Hg Hn eq_refl) as HD. fold s in HD.
      generalize dependent (vip n s u (curl_curl_op v g u)). generalize (vip n s u (tapply eps u)). intros [t1 t2] [d1 d2] HD.
      cbn in HD. subst d2. unfold im. rewrite <- RtoC_inv by apply pa_b.
      replace (Ci / RtoC (snd alpha)) with (Ci * RtoC (/ snd alpha)) by (rewrite RtoC_inv by apply pa_ai; reflexivity).
      cbn. field. split; [apply pa_ai|apply pa_b].
    Qed.

    Lemma energy_balance : vnorm2 n s (M e) =
      (vnorm2 n s e - 2 * (snd (vip n s u (tapply eps u)) / (beta * snd alpha)) - (vnorm2 n s d - vnorm2 n s (W d)))%R.
    Proof.
      rewrite <- re_u_chi_d.
      assert (vagree n s (M e) (fun c p => e c p - chi_op o d c p)) as HM.
      { intros c p Hc Hp. unfold M. rewrite !pa_chi by assumption. fold u.
        assert (vagree n s (fun c p => u c p - e c p) (fun c p => - (1) * d c p)) as Hd by (intros c' p' _ _; unfold d; ring).
        rewrite (W_vagree _ _ Hd c p Hc Hp). unfold W. rewrite tapply_scal. unfold d, Cdiv. ring. }
      rewrite (vagree_vnorm2 _ _ _ _ HM), vnorm2_minus.
      rewrite (vagree_vip n s e _ (fun c p => u c p + d c p) (chi_op o d)) by (try (intros c p _ _; reflexivity); intros c p _ _; unfold d; ring).
      rewrite vip_plus_l.
      assert (vnorm2 n s (W d) = vnorm2 n s (chi_op o d) + vnorm2 n s d - 2 * fst (vip n s d (chi_op o d)))%R as HW.
      { rewrite (vagree_vnorm2 n s (W d) (fun c p => chi_op o d c p - d c p)) by (intros c p Hc Hp; rewrite pa_chi by assumption; ring).
        rewrite vnorm2_minus. rewrite <- (vip_conj n s d (chi_op o d)). reflexivity. }
      rewrite HW. cbn. lra.
    Qed.
  End Step.

  Variables (loss rho : R).
  Hypothesis Hloss : absorbs n s eps loss.
  Hypothesis Hloss0 : (0 <= loss)%R.
  Hypothesis Hrho : deviates n s eps beta (fst alpha) (rho * snd alpha).
  Hypothesis Hrho0 : (0 <= rho)%R.

  Lemma absorbed u : (loss * vnorm2 n s u <= snd (vip n s u (tapply eps u)))%R.
  Proof.
    rewrite vnorm2_points, vip_points, <- rsum_over_scal.
    assert (forall f, snd (sum_over s f) = rsum_over s (fun p => snd (f p))) as Hs.
    { clear. induction s as [|m s' IH]; intros f; [reflexivity|]. cbn [sum_over rsum_over].
      assert (forall k (h : nat -> C), snd (csum k h) = rsum k (fun i => snd (h i))) as Hc by (induction k as [|k IHk]; intros h; [reflexivity|]; cbn; rewrite IHk; reflexivity).
      rewrite Hc. apply rsum_ext. intros i _. apply IH. }
    rewrite Hs. apply rsum_over_le. intros p Hp. eapply Rle_trans; [apply (Hloss p (fun i => u i p) Hp)|]. apply Req_le. f_equal.
    apply csum_ext. intros i _. f_equal. destruct eps; reflexivity.
  Qed.
  Lemma deviation d : (vnorm2 n s (W d) <= rho * rho * vnorm2 n s d)%R.
  Proof.
    rewrite (vagree_vnorm2 n s (W d) (fun c p => (Ci / im alpha) * (tapply eps d c p / RtoC beta - RtoC (fst alpha) * d c p))) by (intros c p _ _; reflexivity).
    rewrite vnorm2_scal.
    assert (Cmod (Ci / im alpha) = (/ snd alpha)%R) as ->.
    { unfold im. rewrite Cmod_div by (apply RtoC_neq, pa_ai). rewrite Cmod_R, Rabs_pos_eq by lra.
      replace (Cmod Ci) with 1%R; [unfold Rdiv; ring|]. unfold Cmod. cbn. replace (0 * (0 * 1) + 1 * (1 * 1))%R with 1%R by ring. rewrite sqrt_1. reflexivity. }
    assert (vnorm2 n s (fun c p => tapply eps d c p / RtoC beta - RtoC (fst alpha) * d c p)%C <= (rho * snd alpha) * (rho * snd alpha) * vnorm2 n s d)%R as H.
    { rewrite !vnorm2_points, <- rsum_over_scal. apply rsum_over_le. intros p Hp.
      eapply Rle_trans; [|apply (Hrho p (fun i => d i p) Hp)]. apply Req_le. apply rsum_ext. intros i _.
      replace (tapply eps (fun j _ => d j p) i p) with (tapply eps d i p) by (destruct eps; reflexivity). reflexivity. }
    apply Rle_trans with (/ snd alpha * / snd alpha * ((rho * snd alpha) * (rho * snd alpha) * vnorm2 n s d))%R.
    - apply Rmult_le_compat_l; [|exact H]. pose proof (Rinv_0_lt_compat _ Ha). nra.
    - apply Req_le. field. apply pa_ai.
  Qed.

  (** The energy never grows, and drops by at least these amounts. *)
  Lemma energy_drop e : let u := green_op o (chi_op o e) in let d := (fun c p => e c p - u c p)%C in
    (vnorm2 n s (M e) <= vnorm2 n s e - 2 * (loss / (beta * snd alpha)) * vnorm2 n s u - (1 - rho * rho) * vnorm2 n s d)%R.
  Proof.
    intros u d. rewrite energy_balance. fold u d. pose proof (deviation d) as H0. pose proof (absorbed u) as H.
    assert (0 < beta * snd alpha)%R as Hp by nra.
    assert (loss / (beta * snd alpha) * vnorm2 n s u <= snd (vip n s u (tapply eps u)) / (beta * snd alpha))%R.
    { unfold Rdiv. rewrite Rmult_assoc, (Rmult_comm (/ _)), <- Rmult_assoc. apply Rmult_le_compat_r; [|exact H].
      left. apply Rinv_0_lt_compat. exact Hp. }
    lra.
  Qed.
  Lemma energy_nonincreasing e : (rho <= 1)%R -> (vnorm2 n s (M e) <= vnorm2 n s e)%R.
  Proof.
    intros Hr. pose proof (energy_drop e) as H. cbn zeta in H.
    pose proof (vnorm2_nonneg n s (green_op o (chi_op o e))). pose proof (vnorm2_nonneg n s (fun c p => e c p - green_op o (chi_op o e) c p)).
    assert (0 < beta * snd alpha)%R as Hp by nra. assert (0 <= loss / (beta * snd alpha))%R by (apply Rmult_le_pos; [assumption|left; apply Rinv_0_lt_compat; assumption]).
    assert (0 <= 1 - rho * rho)%R by nra. nra.
  Qed.
  Lemma energy_contracts e k : (k <= 2 * (loss / (beta * snd alpha)))%R -> (k <= 1 - rho * rho)%R -> (0 <= k)%R ->
    (vnorm2 n s (M e) <= (1 - k / 2) * vnorm2 n s e)%R.
  Proof.
    intros H1 H2 H3. pose proof (energy_drop e) as H. cbn zeta in H.
    set (u := green_op o (chi_op o e)) in *. set (d := fun c p => (e c p - u c p)%C) in *.
    pose proof (vnorm2_nonneg n s u). pose proof (vnorm2_nonneg n s d).
    assert (vnorm2 n s e <= 2 * vnorm2 n s u + 2 * vnorm2 n s d)%R as He.
    { rewrite (vagree_vnorm2 n s e (fun c p => u c p + d c p)) by (intros c p _ _; unfold d; ring). apply vnorm2_sum_le. }
    nra.
  Qed.
End Passive.
