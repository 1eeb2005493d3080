(** Proofs about the discrete Fourier transform. *)
From Coq Require Import Reals Lra Lia List Arith Bool ZArith.
Require Import Verif.Cplx Verif.CSum Verif.Field Verif.Fourier_Model Verif.Fourier_Spec.
Import ListNotations.
Local Open Scope R_scope.
Local Open Scope C_scope.

(** ** Phasors *)
Lemma cis_plus x y : cis (x + y) = cis x * cis y.
Proof. apply C_eq; cbn; rewrite ?cos_plus, ?sin_plus; ring. Qed.
Lemma cis_0 : cis 0 = 1.
Proof. apply C_eq; cbn; [apply cos_0|apply sin_0]. Qed.
Lemma cis_neg x : cis (- x) = Cconj (cis x).
Proof. apply C_eq; cbn; [apply cos_neg|apply sin_neg]. Qed.
Lemma cis_minus x y : cis (x - y) = cis x * Cconj (cis y).
Proof. unfold Rminus. rewrite cis_plus, cis_neg. reflexivity. Qed.
Lemma cis_mod x : Cmod (cis x) = 1%R.
Proof.
  unfold Cmod, cis. cbn [fst snd]. replace (cos x ^ 2 + sin x ^ 2)%R with 1%R; [apply sqrt_1|].
  pose proof (sin2_cos2 x). unfold Rsqr in *. lra.
Qed.
Lemma cis_unit x : Cconj (cis x) * cis x = 1.
Proof. rewrite Cmult_conj, cis_mod. f_equal. ring. Qed.
Lemma cis_2PI_nat n : cis (2 * PI * INR n) = 1.
Proof.
  apply C_eq; cbn [cis fst snd RtoC].
  - replace (2 * PI * INR n)%R with (0 + 2 * INR n * PI)%R by ring. rewrite cos_period, cos_0. reflexivity.
  - replace (2 * PI * INR n)%R with (0 + 2 * INR n * PI)%R by ring. rewrite sin_period, sin_0. reflexivity.
Qed.
Lemma cis_neq_1 x : (0 < x < 2 * PI)%R -> cis x <> 1.
Proof.
  intros [H1 H2] E. apply (f_equal fst) in E. cbn in E.
  assert (0 < sin (x / 2))%R as Hs by (apply sin_gt_0; lra).
  pose proof (cos_2a_sin (x / 2)) as Hc. replace (2 * (x / 2))%R with x in Hc by field. nra.
Qed.

Lemma cis_geometric n x : csum n (fun j => cis (INR j * x)) * (cis x - 1) = cis (INR n * x) - 1.
Proof.
  induction n; [cbn [csum INR]; rewrite Rmult_0_l, cis_0; ring|].
  cbn [csum]. rewrite S_INR. replace ((INR n + 1) * x)%R with (INR n * x + x)%R by ring. rewrite cis_plus.
  rewrite Cmult_plus_distr_r, IHn. ring.
Qed.

Lemma csum_roots n m : (0 < m < n)%nat -> csum n (fun j => cis (INR j * (2 * PI * INR m / INR n))) = 0.
Proof.
  intros [Hm Hn]. set (x := (2 * PI * INR m / INR n)%R).
  pose proof PI_RGT_0 as Hpi.
  assert (0 < INR n)%R as Hn0 by (apply lt_0_INR; lia). assert (0 < INR m)%R as Hm0 by (apply lt_0_INR; lia).
  assert (INR m < INR n)%R as Hmn by (apply lt_INR; lia).
  assert (0 < x < 2 * PI)%R as Hx.
  { unfold x. split; [apply Rdiv_lt_0_compat; nra|]. apply (Rmult_lt_reg_r (INR n)); [assumption|].
    unfold Rdiv. rewrite Rmult_assoc, Rinv_l by lra. nra. }
  pose proof (cis_geometric n x) as Hg.
  assert (INR n * x = 2 * PI * INR m)%R as E by (unfold x; field; lra).
  rewrite E, cis_2PI_nat in Hg. replace (1 - 1) with (RtoC 0) in Hg by ring.
  destruct (Ceq_dec (csum n (fun j => cis (INR j * x))) 0) as [H|H]; [exact H|].
  exfalso. apply (Cmult_neq_0 _ _ H (Cminus_eq_contra _ _ (cis_neq_1 x Hx))). exact Hg.
Qed.

Lemma csum_orthogonal n a b : (a < n)%nat -> (b < n)%nat ->
  csum n (fun k => cis (2 * PI * (INR a * INR k) / INR n - 2 * PI * (INR b * INR k) / INR n))
  = if Nat.eqb a b then RtoC (INR n) else 0.
Proof.
  intros Ha Hb. assert (0 < INR n)%R as Hn0 by (apply lt_0_INR; lia). destruct (Nat.eqb_spec a b) as [->|Hne].
  - rewrite (csum_ext _ _ (fun _ => 1)); [rewrite csum_const; ring|]. intros k _.
    replace (_ - _)%R with 0%R by ring. apply cis_0.
  - destruct (Nat.lt_ge_cases b a) as [Hlt|Hge].
    + rewrite <- (csum_roots n (a - b)) by lia. apply csum_ext. intros k _. f_equal. rewrite minus_INR by lia. field. lra.
    + transitivity (Cconj (csum n (fun j => cis (INR j * (2 * PI * INR (b - a) / INR n))))).
      * rewrite csum_conj. apply csum_ext. intros k _. rewrite <- cis_neg. f_equal. rewrite minus_INR by lia. field. lra.
      * rewrite csum_roots by lia. apply Cconj_R.
Qed.

Lemma phase_sym s j k : phase s j k = phase s k j.
Proof. revert j k. induction s as [|n s IH]; intros [|a j] [|b k]; cbn; try reflexivity. rewrite IH. unfold Rdiv. ring. Qed.

Lemma sum_over_orthogonal s p q : inside s p -> inside s q ->
  sum_over s (fun k => cis (phase s p k - phase s q k)) = if idx_eqb p q then RtoC (INR (points s)) else 0.
Proof.
  intros Hp. revert q. induction Hp as [|n a s p Ha Hp IH]; intros q Hq; inversion Hq; subst; cbn [sum_over phase].
  - replace (0 - 0)%R with 0%R by ring. rewrite cis_0. reflexivity.
  - rename y into b, l' into q'.
    rewrite (csum_ext _ _ (fun k => cis (2 * PI * (INR a * INR k) / INR n - 2 * PI * (INR b * INR k) / INR n) *
               sum_over s (fun k => cis (phase s p k - phase s q' k)))).
    + rewrite csum_scal_r, csum_orthogonal, IH, idx_eqb_cons by assumption. cbn [points fold_right].
      fold (points s). rewrite mult_INR, RtoC_mult. destruct (Nat.eqb a b); cbn [andb]; [destruct (idx_eqb p q'); ring|ring].
    + intros i _. rewrite <- sum_over_scal. apply sum_over_ext. intros k _. rewrite <- cis_plus. f_equal. ring.
Qed.

Lemma points_pos s : nonempty s -> (0 < points s)%nat.
Proof. induction 1; cbn; [lia|]. apply Nat.mul_pos_pos; assumption. Qed.
Lemma points_neq_0 s : nonempty s -> RtoC (INR (points s)) <> 0.
Proof. intros H E. apply RtoC_inj in E. apply (not_0_INR (points s)); [pose proof (points_pos s H); lia|exact E]. Qed.
Lemma inside_nonempty s p : inside s p -> nonempty s.
Proof. induction 1; constructor; [lia|assumption]. Qed.

(** ** Inversion *)
Lemma ift_ft s f : agree s (ift s (ft s f)) f.
Proof.
  intros p Hp. pose proof (points_neq_0 s (inside_nonempty _ _ Hp)) as HN. unfold ift, ft.
  transitivity (sum_over s (fun j => sum_over s (fun k => f j * cis (phase s p k - phase s j k))) / RtoC (INR (points s))).
  - f_equal. rewrite sum_over_swap. apply sum_over_ext. intros k _. rewrite <- sum_over_scal_r. apply sum_over_ext. intros j _.
    rewrite <- Cmult_assoc. f_equal. rewrite <- cis_plus. f_equal. ring.
  - rewrite (sum_over_ext _ _ (fun j => if idx_eqb j p then f j * RtoC (INR (points s)) else 0)).
    + rewrite sum_over_delta by assumption. field. assumption.
    + intros j Hj. rewrite sum_over_scal, sum_over_orthogonal by assumption.
      destruct (idx_eqb_spec p j), (idx_eqb_spec j p); try congruence. ring.
Qed.

Lemma ft_ift s f : agree s (ft s (ift s f)) f.
Proof.
  intros p Hp. pose proof (points_neq_0 s (inside_nonempty _ _ Hp)) as HN. unfold ift, ft.
  transitivity (sum_over s (fun j => sum_over s (fun k => f j * cis (phase s j k - phase s p k))) / RtoC (INR (points s))).
  - unfold Cdiv. rewrite sum_over_swap, <- sum_over_scal_r. apply sum_over_ext. intros k _.
    rewrite <- !sum_over_scal_r. apply sum_over_ext. intros j _. rewrite (phase_sym s k j), (phase_sym s k p). unfold Rminus.
    rewrite cis_plus. ring.
  - rewrite (sum_over_ext _ _ (fun j => if idx_eqb j p then f j * RtoC (INR (points s)) else 0)).
    + rewrite sum_over_delta by assumption. field. assumption.
    + intros j Hj. rewrite sum_over_scal, sum_over_orthogonal by assumption. destruct (idx_eqb j p); ring.
Qed.

(** ** Linearity *)
Lemma ft_ext s f g k : agree s f g -> ft s f k = ft s g k.
Proof. intros H. apply sum_over_ext. intros p Hp. rewrite (H p Hp). reflexivity. Qed.
Lemma ift_ext s f g k : agree s f g -> ift s f k = ift s g k.
Proof. intros H. unfold ift. f_equal. apply sum_over_ext. intros p Hp. rewrite (H p Hp). reflexivity. Qed.
Lemma ft_plus s f g k : ft s (fun p => f p + g p) k = ft s f k + ft s g k.
Proof. unfold ft. rewrite <- sum_over_plus. apply sum_over_ext. intros; ring. Qed.
Lemma ft_scal s a f k : ft s (fun p => a * f p) k = a * ft s f k.
Proof. unfold ft. rewrite <- sum_over_scal. apply sum_over_ext. intros; ring. Qed.
Lemma ft_minus s f g k : ft s (fun p => f p - g p) k = ft s f k - ft s g k.
Proof. unfold ft. rewrite <- sum_over_minus. apply sum_over_ext. intros; ring. Qed.
Lemma ift_plus s f g k : ift s (fun p => f p + g p) k = ift s f k + ift s g k.
Proof. unfold ift, Cdiv. rewrite <- Cmult_plus_distr_r, <- sum_over_plus. f_equal. apply sum_over_ext. intros; ring. Qed.
Lemma ift_scal s a f k : ift s (fun p => a * f p) k = a * ift s f k.
Proof. unfold ift, Cdiv. rewrite Cmult_assoc, <- sum_over_scal. f_equal. apply sum_over_ext. intros; ring. Qed.
Lemma ift_minus s f g k : ift s (fun p => f p - g p) k = ift s f k - ift s g k.
Proof.
  replace (ift s f k - ift s g k) with (ift s f k + - (1) * ift s g k) by ring. rewrite <- ift_scal, <- ift_plus.
  apply ift_ext. intros p _. ring.
Qed.

(** ** Adjoint and Parseval *)
Lemma ft_adjoint s f g : nonempty s -> ip s (ft s f) g = RtoC (INR (points s)) * ip s f (ift s g).
Proof.
  intros Hs. pose proof (points_neq_0 s Hs) as HN. unfold ip, ft, ift.
  transitivity (sum_over s (fun j => sum_over s (fun k => Cconj (f j) * cis (phase s j k) * g k))).
  - rewrite sum_over_swap. apply sum_over_ext. intros k _. rewrite sum_over_conj, <- sum_over_scal_r. apply sum_over_ext.
    intros j _. rewrite Cconj_mult, cis_neg, Cconj_conj. reflexivity.
  - rewrite <- sum_over_scal. apply sum_over_ext. intros j _.
    replace (RtoC (INR (points s)) * (Cconj (f j) * (sum_over s (fun k => g k * cis (phase s j k)) / RtoC (INR (points s)))))
      with (Cconj (f j) * sum_over s (fun k => g k * cis (phase s j k))) by (field; assumption).
    rewrite <- sum_over_scal. apply sum_over_ext. intros; ring.
Qed.
Lemma ft_ip s f g : nonempty s -> ip s (ft s f) (ft s g) = RtoC (INR (points s)) * ip s f g.
Proof.
  intros Hs. rewrite ft_adjoint by assumption. f_equal. apply ip_ext; [reflexivity|]. apply ift_ft.
Qed.
Lemma ft_norm2 s f : nonempty s -> norm2 s (ft s f) = (INR (points s) * norm2 s f)%R.
Proof. intros Hs. apply RtoC_inj. rewrite RtoC_mult, <- !ip_self. apply ft_ip. assumption. Qed.
Lemma ift_norm2 s f : nonempty s -> norm2 s f = (INR (points s) * norm2 s (ift s f))%R.
Proof.
  intros Hs. rewrite <- ft_norm2 by assumption. apply norm2_ext. intros p Hp. symmetry. apply ft_ift. assumption.
Qed.
Lemma ift_ip s f g : nonempty s -> ip s f g = RtoC (INR (points s)) * ip s (ift s f) (ift s g).
Proof.
  intros Hs. rewrite <- ft_ip by assumption. apply ip_ext; intros p Hp; symmetry; apply ft_ift; assumption.
Qed.

(** ** Filters are circular convolutions *)
Lemma cis_mod_nat (n a b : nat) : (0 < n)%nat -> cis (2 * PI * (INR (a mod n) * INR b) / INR n) = cis (2 * PI * (INR a * INR b) / INR n).
Proof.
  intros Hn. assert (0 < INR n)%R as Hn0 by (apply lt_0_INR; lia).
  rewrite (Nat.div_mod a n) at 2 by lia. rewrite plus_INR, mult_INR.
  replace (2 * PI * ((INR n * INR (a / n) + INR (a mod n)) * INR b) / INR n)%R
    with (2 * PI * INR (a / n * b) + 2 * PI * (INR (a mod n) * INR b) / INR n)%R by (rewrite mult_INR; field; lra).
  rewrite cis_plus, cis_2PI_nat. ring.
Qed.
Lemma cis_wrap_sub s p q k : inside s p -> inside s q -> inside s k ->
  cis (phase s (wrap_sub s p q) k) = cis (phase s p k - phase s q k).
Proof.
  intros Hp. revert q k. induction Hp as [|n a s p Ha Hp IH]; intros q k Hq Hk; inversion Hq; inversion Hk; subst; cbn [phase wrap_sub].
  - f_equal. ring.
  - rename y into b, l' into q', y0 into c, l'0 into k'.
    rewrite cis_plus, cis_mod_nat, IH by (assumption || lia). rewrite <- cis_plus.
    assert (0 < INR n)%R as Hn0 by (apply lt_0_INR; lia).
    rewrite plus_INR, minus_INR by lia.
    replace (2 * PI * ((INR a + (INR n - INR b)) * INR c) / INR n + (phase s p k' - phase s q' k'))%R with
      (2 * PI * INR c + (2 * PI * (INR a * INR c) / INR n + phase s p k' - (2 * PI * (INR b * INR c) / INR n + phase s q' k')))%R
      by (field; lra).
    rewrite (cis_plus (2 * PI * INR c)), cis_2PI_nat. ring.
Qed.
Lemma wrap_sub_inside s p q : inside s p -> inside s q -> inside s (wrap_sub s p q).
Proof.
  intros Hp. revert q. induction Hp as [|n a s p Ha Hp IH]; intros q Hq; inversion Hq; subst; cbn [wrap_sub]; constructor.
  - apply Nat.mod_upper_bound. lia.
  - apply IH. assumption.
Qed.

Lemma filter_convolution s h f p : inside s p ->
  ift s (fun k => h k * ft s f k) p = sum_over s (fun q => ift s h (wrap_sub s p q) * f q).
Proof.
  intros Hp. unfold ift, ft.
  transitivity (sum_over s (fun q => sum_over s (fun k => h k * f q * cis (phase s p k - phase s q k)) / RtoC (INR (points s)))).
  - unfold Cdiv. rewrite sum_over_scal_r. f_equal. rewrite sum_over_swap. apply sum_over_ext. intros k _.
    rewrite <- sum_over_scal, <- sum_over_scal_r. apply sum_over_ext. intros q _. unfold Rminus. rewrite cis_plus. ring.
  - apply sum_over_ext. intros q Hq. unfold Cdiv. rewrite <- !sum_over_scal_r. apply sum_over_ext. intros k Hk.
    rewrite cis_wrap_sub by assumption. ring.
Qed.
