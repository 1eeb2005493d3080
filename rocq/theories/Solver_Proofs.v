(** Proofs about the preconditioned operators: the fixed point solves the wave equation; changes of alpha. *)
From Coq Require Import Reals Lra Lia List Arith Bool FunctionalExtensionality.
Require Import Verif.Base Verif.Cplx Verif.CSum Verif.Field Verif.Fourier_Model Verif.Fourier_Spec Verif.Fourier_Proofs.
Require Import Verif.Vec_Model Verif.Vec_Spec Verif.Vec_Proofs Verif.Solver_Model Verif.Solver_Spec.
Import ListNotations.
Local Open Scope R_scope.
Local Open Scope C_scope.

Lemma RtoC_neq x : x <> 0%R -> RtoC x <> 0.
Proof. intros H E. apply RtoC_inj in E. contradiction. Qed.
Lemma Ci_neq : Ci <> 0.
Proof. intros E. apply (f_equal snd) in E. cbn in E. lra. Qed.
Lemma im_neq (alpha : C) : snd alpha <> 0%R -> im alpha <> 0.
Proof. apply RtoC_neq. Qed.
Lemma alpha_neq (alpha : C) : snd alpha <> 0%R -> alpha <> 0.
Proof. intros H ->. cbn in H. lra. Qed.
Lemma real_minus_alpha_neq (x : R) (alpha : C) : snd alpha <> 0%R -> RtoC x - alpha <> 0.
Proof. intros H E. apply (f_equal snd) in E. cbn in E. lra. Qed.
#[export] Hint Resolve RtoC_neq Ci_neq im_neq alpha_neq real_minus_alpha_neq : cneq.

(** ** Changing alpha *)
Lemma tensor_ext (a b : tensor) :
  match a, b with
  | TScalar f, TScalar g => forall p, f p = g p
  | TMatrix m, TMatrix n => forall i j p, m i j p = n i j p
  | _, _ => False
  end -> a = b.
Proof.
  destruct a, b; try contradiction; intros H; f_equal.
  - apply functional_extensionality. exact H.
  - apply functional_extensionality. intros i. apply functional_extensionality. intros j. apply functional_extensionality. apply H.
Qed.

Lemma update_precondition g v m alpha alpha' beta eps xi zeta mu S :
  snd alpha <> 0%R -> snd alpha' <> 0%R -> beta <> 0%R ->
  update_operators (precondition g v m alpha beta eps xi zeta mu S) alpha' = precondition g v m alpha' beta eps xi zeta mu S.
Proof.
  intros H H' Hb. unfold update_operators, precondition. cbn -[im tsub tmul tinv tadd Cdiv RtoC].
  assert (im alpha <> 0) by auto with cneq. assert (im alpha' <> 0) by auto with cneq. assert (RtoC beta <> 0) by auto with cneq.
  pose proof Ci_neq.
  f_equal.
  - generalize (tsub eps (tmul xi (tscale (- Ci) (tscale Ci (tmul (tinv mu) zeta))))). intros d. apply tensor_ext.
    destruct d; cbn -[im Cdiv RtoC]; intros; field; auto.
  - generalize (tmul xi (tinv mu)). intros d. apply tensor_ext. destruct d; cbn -[im Cdiv RtoC]; intros; field; auto.
  - generalize (tmul (tinv mu) zeta). intros d. apply tensor_ext. destruct d; cbn -[im Cdiv RtoC]; intros; field; auto.
  - generalize (if m then tsub (TScalar (fun _ => 1)) (tscale (1 / RtoC beta) (tinv mu)) else tadd (TScalar (fun _ => 1)) (tscale (- (1 / RtoC beta)) (tinv mu))).
    intros d. apply tensor_ext. destruct d; cbn -[im Cdiv RtoC]; intros; field; auto.
  - apply functional_extensionality. intros c. apply functional_extensionality. intros p. field. auto.
Qed.

Lemma prepare_precondition g v m alpha beta eps xi zeta mu S : snd alpha <> 0%R -> beta <> 0%R ->
  prepare g v m alpha beta eps xi zeta mu S = precondition g v m alpha beta eps xi zeta mu S.
Proof. intros. apply update_precondition; assumption. Qed.

Lemma update_prepare g v m alpha alpha' beta eps xi zeta mu S :
  snd alpha <> 0%R -> snd alpha' <> 0%R -> beta <> 0%R ->
  update_operators (prepare g v m alpha beta eps xi zeta mu S) alpha' = prepare g v m alpha' beta eps xi zeta mu S.
Proof. intros. rewrite !prepare_precondition by assumption. apply update_precondition; assumption. Qed.

Lemma last_cons_default {A} (a d : A) l : last (a :: l) d = last l a.
Proof.
  destruct l as [|b l]; [reflexivity|]. change (last (a :: b :: l) d) with (last (b :: l) d).
  revert b. induction l as [|x l IH]; intros b; [reflexivity|]. cbn [last] in *. destruct l; [reflexivity|]. apply (IH x).
Qed.
Lemma update_history g v m alpha beta eps xi zeta mu S l :
  snd alpha <> 0%R -> beta <> 0%R -> Forall (fun a => snd a <> 0%R) l ->
  fold_left update_operators l (prepare g v m alpha beta eps xi zeta mu S) = prepare g v m (last l alpha) beta eps xi zeta mu S.
Proof.
  intros Ha Hb Hl. revert alpha Ha. induction Hl as [|a l Hal Hl IH]; intros alpha Ha; [reflexivity|].
  cbn [fold_left]. rewrite update_prepare by assumption. rewrite IH by assumption. f_equal.
  symmetry. apply last_cons_default.
Qed.

(** ** The inverse of the Green operator *)
Lemma longitudinal_scal g (a : list nat -> C) F c p :
  longitudinal_ft g (fun c p => F c p * a p) c p = longitudinal_ft g F c p * a p.
Proof.
  unfold longitudinal_ft. destruct (Nat.ltb c (rndim g)); [|ring]. destruct (is_origin p); [reflexivity|].
  rewrite (csum_ext _ _ (fun i => RtoC (kvec g i p) * F i p * a p)) by (intros; ring). rewrite csum_scal_r. unfold Cdiv. ring.
Qed.
Lemma longitudinal_plus g F G c p : longitudinal_ft g (fun c p => F c p + G c p) c p = longitudinal_ft g F c p + longitudinal_ft g G c p.
Proof.
  unfold longitudinal_ft. destruct (Nat.ltb c (rndim g)); [|ring]. destruct (is_origin p); [reflexivity|].
  rewrite (csum_ext _ _ (fun i => RtoC (kvec g i p) * F i p + RtoC (kvec g i p) * G i p)) by (intros; ring).
  rewrite csum_plus. unfold Cdiv. ring.
Qed.

(** (i / alpha_i) (|k|^2 Pi_T - alpha). *)
Definition ginv_ft (o : ops) (F : vfield) : vfield := fun c p =>
  Ci / im (o_alpha o) *
  (RtoC (k2 (o_grid o) p) * (if o_vectorial o then transversal_ft (o_grid o) F c p else F c p) - o_alpha o * F c p).
Definition ginv (o : ops) (F : vfield) : vfield := convolve (rshape (o_grid o)) (ginv_ft o) F.

Definition fine (o : ops) : Prop := proper (o_grid o) /\ snd (o_alpha o) <> 0%R /\ (o_vectorial o = true -> (rndim (o_grid o) <= 3)%nat).

Lemma g_ginv_ft o F c p : fine o -> inside (rshape (o_grid o)) p -> g_ft_op o (ginv_ft o F) c p = F c p.
Proof.
  intros (Hg & Ha & Hn) Hp. unfold g_ft_op, g_scalar, ginv_ft. pose proof (im_neq _ Ha). pose proof (alpha_neq _ Ha). pose proof Ci_neq.
  pose proof (real_minus_alpha_neq (k2 (o_grid o) p) _ Ha) as Hk.
  destruct (o_vectorial o).
  - set (A := Ci / im (o_alpha o)). set (L := longitudinal_ft (o_grid o) F c p).
    assert (longitudinal_ft (o_grid o) (fun c p => A * (RtoC (k2 (o_grid o) p) * transversal_ft (o_grid o) F c p - o_alpha o * F c p)) c p
            = - A * o_alpha o * L) as ->.
    { transitivity (longitudinal_ft (o_grid o) (fun c p => transversal_ft (o_grid o) F c p * (A * RtoC (k2 (o_grid o) p)) + F c p * (- A * o_alpha o)) c p).
      - apply (longitudinal_pointwise (o_grid o) (S c + rndim (o_grid o)) ltac:(lia) _ _ p Hp); [intros; ring|lia].
      - rewrite longitudinal_plus, (longitudinal_scal _ (fun p => A * RtoC (k2 (o_grid o) p))), (longitudinal_scal _ (fun p => - A * o_alpha o)).
        rewrite longitudinal_transversal_ft by assumption. fold L. ring. }
    assert (transversal_ft (o_grid o) F c p = F c p - L) as -> by reflexivity.
    unfold A. generalize dependent (im (o_alpha o)). intros i Hi. 
    replace ((Ci / i * (k2 (o_grid o) p * (F c p - L) - o_alpha o * F c p) - - (Ci / i) * o_alpha o * L) *
              (- Ci * i / (k2 (o_grid o) p - o_alpha o)))
      with (- (Ci * Ci) * (F c p - L)) by (field; auto).
    replace (- (Ci / i) * o_alpha o * L * (Ci * i / o_alpha o)) with (- (Ci * Ci) * L) by (field; auto).
    intros _. rewrite Ci_sq. ring.
  - generalize dependent (im (o_alpha o)). intros i Hi.
    replace (Ci / i * (k2 (o_grid o) p * F c p - o_alpha o * F c p) * (- Ci * i / (k2 (o_grid o) p - o_alpha o)))
      with (- (Ci * Ci) * F c p) by (field; auto).
    rewrite Ci_sq. ring.
Qed.

Lemma ginv_g_ft o F c p : fine o -> inside (rshape (o_grid o)) p -> ginv_ft o (g_ft_op o F) c p = F c p.
Proof.
  intros (Hg & Ha & Hn) Hp. unfold ginv_ft, transversal_ft. pose proof (im_neq _ Ha). pose proof (alpha_neq _ Ha). pose proof Ci_neq.
  pose proof (real_minus_alpha_neq (k2 (o_grid o) p) _ Ha) as Hk.
  unfold g_ft_op. destruct (o_vectorial o).
  - set (L := longitudinal_ft (o_grid o) F). set (T := transversal_ft (o_grid o) F).
    assert (longitudinal_ft (o_grid o) (fun c p => (F c p - L c p) * g_scalar o p + L c p * (Ci * im (o_alpha o) / o_alpha o)) c p
            = L c p * (Ci * im (o_alpha o) / o_alpha o)) as ->.
    { rewrite longitudinal_plus, (longitudinal_scal _ (g_scalar o)), (longitudinal_scal _ (fun p => Ci * im (o_alpha o) / o_alpha o)).
      change (fun c p => F c p - L c p) with T. unfold T, L. rewrite longitudinal_transversal_ft, longitudinal_idempotent_ft by assumption. ring. }
    unfold g_scalar. generalize dependent (im (o_alpha o)). intros i Hi.
    transitivity (- (Ci * Ci) * (F c p - L c p) - (Ci * Ci) * L c p); [field; auto|]. rewrite Ci_sq. ring.
  - unfold g_scalar. generalize dependent (im (o_alpha o)). intros i Hi.
    transitivity (- (Ci * Ci) * F c p); [field; auto|]. rewrite Ci_sq. ring.
Qed.

Lemma g_pointwise o n : (o_vectorial o = true -> (rndim (o_grid o) <= n)%nat) -> pointwise (rshape (o_grid o)) n (g_ft_op o).
Proof.
  intros Hn F G p Hp H c Hc. unfold g_ft_op. destruct (o_vectorial o).
  - rewrite (longitudinal_pointwise _ n (Hn eq_refl) F G p Hp H c Hc), (H c Hc). reflexivity.
  - rewrite (H c Hc). reflexivity.
Qed.
Lemma ginv_pointwise o n : (o_vectorial o = true -> (rndim (o_grid o) <= n)%nat) -> pointwise (rshape (o_grid o)) n (ginv_ft o).
Proof.
  intros Hn F G p Hp H c Hc. unfold ginv_ft. destruct (o_vectorial o).
  - rewrite (transversal_pointwise _ n (Hn eq_refl) F G p Hp H c Hc), (H c Hc). reflexivity.
  - rewrite (H c Hc). reflexivity.
Qed.
Lemma fine_ndim o : fine o -> o_vectorial o = true -> (rndim (o_grid o) <= vector_length o)%nat.
Proof. intros (_ & _ & H) E. unfold vector_length. rewrite E. auto. Qed.

Lemma convolve_vagree s n op F G : pointwise s n op -> vagree n s F G -> vagree n s (convolve s op F) (convolve s op G).
Proof.
  intros Hpw H c p Hc Hp. unfold convolve, vift. apply ift_ext. intros k Hk. apply (Hpw _ _ k Hk); [|assumption].
  intros d Hd. unfold vft. apply ft_ext. intros q Hq. apply H; assumption.
Qed.
Lemma convolve_id s op F c p : inside s p -> (forall k, inside s k -> op (vft s F) c k = vft s F c k) -> convolve s op F c p = F c p.
Proof.
  intros Hp H. unfold convolve, vift. rewrite (ift_ext _ _ (ft s (F c))) by exact H. apply ift_ft. assumption.
Qed.

Lemma green_ginv o F : fine o -> vagree (vector_length o) (rshape (o_grid o)) (green_op o (ginv o F)) F.
Proof.
  intros Ho c p Hc Hp. unfold green_op, ginv. rewrite (convolve_convolve _ (vector_length o)) by (try apply g_pointwise; try apply fine_ndim; assumption).
  apply convolve_id; [assumption|]. intros k Hk. apply g_ginv_ft; assumption.
Qed.
Lemma ginv_green o F : fine o -> vagree (vector_length o) (rshape (o_grid o)) (ginv o (green_op o F)) F.
Proof.
  intros Ho c p Hc Hp. unfold green_op, ginv. rewrite (convolve_convolve _ (vector_length o)) by (try apply ginv_pointwise; try apply fine_ndim; assumption).
  apply convolve_id; [assumption|]. intros k Hk. apply ginv_g_ft; assumption.
Qed.
Lemma green_vagree o F G : fine o -> vagree (vector_length o) (rshape (o_grid o)) F G ->
  vagree (vector_length o) (rshape (o_grid o)) (green_op o F) (green_op o G).
Proof. intros Ho. apply convolve_vagree, g_pointwise, fine_ndim. assumption. Qed.
Lemma ginv_vagree o F G : fine o -> vagree (vector_length o) (rshape (o_grid o)) F G ->
  vagree (vector_length o) (rshape (o_grid o)) (ginv o F) (ginv o G).
Proof. intros Ho. apply convolve_vagree, ginv_pointwise, fine_ndim. assumption. Qed.

Lemma vagree_sym n s F G : vagree n s F G -> vagree n s G F.
Proof. intros H c p Hc Hp. symmetry. apply H; assumption. Qed.
Lemma vagree_trans n s F G H : vagree n s F G -> vagree n s G H -> vagree n s F H.
Proof. intros H1 H2 c p Hc Hp. rewrite H1 by assumption. apply H2; assumption. Qed.

(** E = G(X E + s) exactly if G^-1 E = X E + s. *)
Lemma green_fixed o E : fine o ->
  (vagree (vector_length o) (rshape (o_grid o)) (green_op o (fun c p => chi_op o E c p + o_source o c p)) E <->
   vagree (vector_length o) (rshape (o_grid o)) (fun c p => chi_op o E c p + o_source o c p) (ginv o E)).
Proof.
  intros Ho. split; intros H.
  - eapply vagree_trans; [apply vagree_sym, ginv_green; assumption|]. apply ginv_vagree; assumption.
  - eapply vagree_trans; [apply green_vagree; [assumption|exact H]|]. apply green_ginv. assumption.
Qed.

(** G^-1 in real space. *)
Lemma convolve_k2_transversal g E : proper g -> (rndim g <= 3)%nat ->
  vagree 3 (rshape g) (convolve (rshape g) (fun F c k => RtoC (k2 g k) * transversal_ft g F c k) E) (curl g 3 (curl g 3 E)).
Proof.
  intros Hg Hn c p Hc Hp. unfold curl. rewrite (convolve_convolve _ 3 _ _ _ _ _ (curl_pointwise g Hn) Hc). symmetry.
  apply convolve_ext. intros k Hk. apply curl_curl_ft; assumption.
Qed.

Lemma ginv_real o E : fine o -> vagree (vector_length o) (rshape (o_grid o)) (ginv o E)
  (fun c p => Ci / im (o_alpha o) * (curl_curl_op (o_vectorial o) (o_grid o) E c p - o_alpha o * E c p)).
Proof.
  intros (Hg & Ha & Hn) c p Hc Hp.
  transitivity (Ci / im (o_alpha o) *
    (convolve (rshape (o_grid o)) (fun F c k => RtoC (k2 (o_grid o) k) * (if o_vectorial o then transversal_ft (o_grid o) F c k else F c k)) E c p
     - o_alpha o * ift (rshape (o_grid o)) (ft (rshape (o_grid o)) (E c)) p)).
  - unfold ginv, convolve, vift. rewrite <- ift_scal, <- ift_minus, <- ift_scal. apply ift_ext. intros k Hk. unfold ginv_ft, vft. reflexivity.
  - rewrite ift_ft by assumption. do 2 f_equal. unfold vector_length in Hc. unfold curl_curl_op. destruct (o_vectorial o).
    + apply convolve_k2_transversal; auto.
    + unfold laplacian, convolve, vift.
      replace (- ift (rshape (o_grid o)) (fun k => RtoC (- k2 (o_grid o) k) * vft (rshape (o_grid o)) E c k) p) with
        (- (1) * ift (rshape (o_grid o)) (fun k => RtoC (- k2 (o_grid o) k) * vft (rshape (o_grid o)) E c k) p) by ring.
      rewrite <- ift_scal. apply ift_ext. intros k Hk. rewrite RtoC_opp. ring.
Qed.

(** ** The susceptibility operator *)
Lemma csum_eye (a : C) (F : nat -> C) c : (c < 3)%nat -> csum 3 (fun j => eye c j * a * F j) = a * F c.
Proof. intros Hc. unfold eye. destruct c as [|[|[|c]]]; [| | |lia]; cbn; ring. Qed.

Lemma tapply_tshift n a t F c p : (c < n)%nat -> (n <= 3)%nat -> tapply (tshift a t) F c p = tapply t F c p + a * F c p.
Proof.
  intros Hc Hn. destruct t as [f|m]; cbn [tshift tapply]; [ring|].
  rewrite (csum_ext _ _ (fun j => m c j p * F j p + eye c j * a * F j p)) by (intros; ring).
  rewrite csum_plus, (csum_eye a (fun j => F j p)) by lia. reflexivity.
Qed.
Lemma tapply_tscale a t F c p : tapply (tscale a t) F c p = a * tapply t F c p.
Proof.
  destruct t as [f|m]; cbn [tscale tapply]; [ring|]. rewrite <- csum_scal. apply csum_ext. intros; ring.
Qed.
Lemma tapply_tsub_zero t u F c p : (c < 3)%nat -> (forall p, match u with TScalar f => f p = 0 | TMatrix m => forall i j, m i j p = 0 end) ->
  tapply (tsub t u) F c p = tapply t F c p.
Proof.
  intros Hc Hu. specialize (Hu p). destruct t as [f|m], u as [h|k]; cbn [tsub tapply].
  - rewrite Hu. ring.
  - rewrite (csum_ext _ _ (fun j => eye c j * f p * F j p)) by (intros; rewrite Hu; ring). apply (csum_eye (f p) (fun j => F j p)). assumption.
  - apply csum_ext. intros. rewrite Hu. ring.
  - apply csum_ext. intros. rewrite Hu. ring.
Qed.
Lemma tapply_vagree n s t F G : (n = 3)%nat \/ (match t with TScalar _ => True | TMatrix _ => False end) ->
  vagree n s F G -> vagree n s (tapply t F) (tapply t G).
Proof.
  intros Ht H c p Hc Hp. destruct t as [f|m]; cbn [tapply].
  - rewrite H by assumption. reflexivity.
  - destruct Ht as [->|[]]. apply csum_ext. intros j Hj. rewrite H by assumption. reflexivity.
Qed.

Lemma chiEE_apply g v m alpha beta eps mu S F c p n : (c < n)%nat -> (n <= 3)%nat -> snd alpha <> 0%R -> beta <> 0%R ->
  tapply (o_chiEE (precondition g v m alpha beta eps tzero tzero mu S)) F c p =
  Ci / im alpha * (tapply eps F c p / RtoC beta - alpha * F c p).
Proof.
  intros Hc Hn Ha Hb. cbn [o_chiEE precondition]. rewrite (tapply_tshift n) by assumption. rewrite tapply_tscale, tapply_tsub_zero.
  - field. split; auto with cneq.
  - lia.
  - intros q. unfold tzero. destruct (tinv mu); cbn; intros; ring.
Qed.

(** ** Units *)
Lemma scaled_ndim k0 g : rndim (scaled k0 g) = rndim g.
Proof. reflexivity. Qed.
Lemma scaled_proper k0 g : k0 <> 0%R -> proper g -> proper (scaled k0 g).
Proof.
  intros Hk (H1 & H2 & H3). unfold proper, scaled. cbn. rewrite map_length. repeat split; try assumption.
  apply Forall_map. eapply Forall_impl; [|exact H3]. intros d Hd. cbn. apply Rmult_integral_contrapositive. split; assumption.
Qed.
Lemma kvec_scaled k0 g i p : k0 <> 0%R -> proper g -> (i < rndim g)%nat -> kvec (scaled k0 g) i p = (kvec g i p / k0)%R.
Proof.
  intros Hk (Hl & H2 & H3) Hi. unfold kvec, scaled, k_axis. cbn [rshape rstep]. unfold rndim in Hi.
  rewrite (nth_indep _ 1%R (k0 * 1)%R) by (rewrite map_length; lia). rewrite map_nth.
  assert (nth i (rstep g) 1%R <> 0%R) by (rewrite Forall_forall in H3; apply H3, nth_In; lia).
  assert (nth i (rshape g) 1%nat <> 0%nat).
  { rewrite Forall_forall in H2. pose proof (H2 _ (nth_In (rshape g) 1%nat Hi)). lia. }
  field. repeat split; try assumption. apply not_0_INR. assumption.
Qed.
Lemma k2_scaled k0 g p : k0 <> 0%R -> proper g -> k2 (scaled k0 g) p = (k2 g p / (k0 * k0))%R.
Proof.
  intros Hk Hg. unfold k2. rewrite scaled_ndim. unfold Rdiv. rewrite Rmult_comm, <- rsum_scal. apply rsum_ext. intros i Hi.
  rewrite !kvec_scaled by assumption. field. assumption.
Qed.
Lemma curl_scaled k0 g F : k0 <> 0%R -> proper g -> (rndim g <= 3)%nat ->
  vagree 3 (rshape g) (curl (scaled k0 g) 3 F) (fun c p => curl g 3 F c p / RtoC k0).
Proof.
  intros Hk Hg Hn c p Hc Hp. unfold curl. cbn [rshape scaled].
  replace (convolve (rshape g) (curl_ft g 3 3) F c p / RtoC k0) with (/ RtoC k0 * convolve (rshape g) (curl_ft g 3 3) F c p) by (unfold Cdiv; ring).
  unfold convolve, vift. rewrite <- ift_scal. apply ift_ext. intros k Hk'. rewrite !curl_ft_cross by assumption.
  assert (forall i, RtoC (wavevector (scaled k0 g) k i) = RtoC (wavevector g k i) / RtoC k0) as Hw.
  { intros i. unfold wavevector. rewrite scaled_ndim. destruct (Nat.ltb_spec i (rndim g)).
    - rewrite kvec_scaled by assumption. apply RtoC_div. assumption.
    - unfold Cdiv. ring. }
  unfold cross3. destruct c as [|[|c]]; rewrite !Hw; unfold Cdiv; ring.
Qed.
Lemma curl_vagree g F G : (rndim g <= 3)%nat -> vagree 3 (rshape g) F G -> vagree 3 (rshape g) (curl g 3 F) (curl g 3 G).
Proof. intros Hn. apply convolve_vagree, curl_pointwise. assumption. Qed.
Lemma curl_scal g F a : (rndim g <= 3)%nat -> vagree 3 (rshape g) (curl g 3 (fun c p => a * F c p)) (fun c p => a * curl g 3 F c p).
Proof.
  intros Hn c p Hc Hp. unfold curl, convolve, vift. rewrite <- ift_scal. apply ift_ext. intros k Hk. rewrite !curl_ft_cross by assumption.
  unfold vft, cross3. destruct c as [|[|c]]; rewrite !ft_scal; ring.
Qed.

Lemma curl_curl_scaled v k0 g E n : k0 <> 0%R -> proper g -> (v = true -> (rndim g <= 3)%nat) -> n = (if v then 3 else 1)%nat ->
  vagree n (rshape g) (curl_curl_op v (scaled k0 g) E) (fun c p => curl_curl_op v g E c p / RtoC (k0 * k0)).
Proof.
  intros Hk Hg Hn ->. assert (RtoC k0 <> 0) by auto with cneq. unfold curl_curl_op. destruct v.
  - specialize (Hn eq_refl). intros c p Hc Hp. rewrite (curl_scaled k0 g) by assumption.
    transitivity (curl g 3 (fun c p => / RtoC k0 * curl g 3 E c p) c p / RtoC k0).
    + f_equal. apply curl_vagree; try assumption. intros d q Hd Hq. rewrite (curl_scaled k0 g) by assumption. unfold Cdiv. ring.
    + rewrite curl_scal by assumption. rewrite RtoC_mult. field. assumption.
  - intros c p Hc Hp. unfold laplacian. cbn [rshape scaled].
    replace (- convolve (rshape g) (fun F c k => RtoC (- k2 g k) * F c k) E c p / RtoC (k0 * k0)) with
      (- (/ RtoC (k0 * k0) * convolve (rshape g) (fun F c k => RtoC (- k2 g k) * F c k) E c p)).
    + f_equal. unfold convolve, vift. rewrite <- ift_scal. apply ift_ext. intros k Hk'. rewrite k2_scaled by assumption.
      rewrite !RtoC_opp, RtoC_div, RtoC_mult; [|apply Rmult_integral_contrapositive; auto]. field. assumption.
    + rewrite RtoC_mult. field. assumption.
Qed.
Lemma curl_curl_scal v g E a n : (v = true -> (rndim g <= 3)%nat) -> n = (if v then 3 else 1)%nat ->
  vagree n (rshape g) (curl_curl_op v g (fun c p => a * E c p)) (fun c p => a * curl_curl_op v g E c p).
Proof.
  intros Hn ->. unfold curl_curl_op. destruct v; intros c p Hc Hp.
  - specialize (Hn eq_refl). transitivity (curl g 3 (fun c p => a * curl g 3 E c p) c p); [|apply curl_scal; assumption].
    apply curl_vagree; try assumption. apply curl_scal. assumption.
  - unfold laplacian, convolve, vift. replace (a * - ift (rshape g) (fun k => RtoC (- k2 g k) * vft (rshape g) E c k) p)
      with (- (a * ift (rshape g) (fun k => RtoC (- k2 g k) * vft (rshape g) E c k) p)) by ring.
    f_equal. rewrite <- ift_scal. apply ift_ext. intros k Hk. unfold vft. rewrite ft_scal. ring.
Qed.

(** ** The fixed points of the iteration *)
Section NonMagnetic.
  Variables (v : bool) (g : raster) (k0 : R) (alpha : C) (beta : R) (eps mu : tensor) (E S : vfield).
  Hypothesis Hs : solvable v g k0.
  Hypothesis Ha : snd alpha <> 0%R.
  Hypothesis Hb : beta <> 0%R.
  Hypothesis Hf : fits v eps.
  Hypothesis Hmu : fits v mu.
  Let o := prepare (scaled k0 g) v false alpha beta eps tzero tzero mu S.
  Let n := (if v then 3 else 1)%nat.
  Let field := fun c p => RtoC (k0 * k0) * E c p.

  Lemma nm_fine : fine o.
  Proof.
    destruct Hs as (Hg & Hk & Hn). unfold o, fine. cbn [o_grid o_alpha o_vectorial prepare precondition update_operators]. repeat split; auto.
    - cbn. rewrite map_length. apply Hg.
    - cbn. apply Hg.
    - apply scaled_proper; assumption.
  Qed.
  Lemma nm_n : vector_length o = n.
  Proof. reflexivity. Qed.
  Lemma n_le_3 : (n <= 3)%nat.
  Proof. unfold n. destruct v; lia. Qed.

  Lemma nm_chi F : forall c p, (c < n)%nat -> chi_op o F c p = Ci / im alpha * (tapply eps F c p / RtoC beta - alpha * F c p).
  Proof.
    intros c p Hc. unfold o. rewrite prepare_precondition by assumption. unfold chi_op. cbn [o_magnetic precondition].
    apply (chiEE_apply _ _ _ _ _ _ _ _ _ _ _ n Hc n_le_3 Ha Hb).
  Qed.
  Lemma nm_source c p : o_source o c p = S c p * (Ci / im alpha / RtoC beta).
  Proof. unfold o. rewrite prepare_precondition by assumption. reflexivity. Qed.

  Lemma tapply_scal t F a c p : tapply t (fun c p => a * F c p) c p = a * tapply t F c p.
  Proof. destruct t; cbn [tapply]; [ring|]. rewrite <- csum_scal. apply csum_ext. intros; ring. Qed.

  Lemma balance : vagree n (rshape g) (fun c p => chi_op o field c p + o_source o c p) (ginv o field) <-> wave_equation v g k0 beta eps E S.
  Proof.
    destruct Hs as (Hg & Hk & Hn). assert (RtoC k0 <> 0) by auto with cneq. assert (RtoC beta <> 0) by auto with cneq.
    assert (im alpha <> 0) by auto with cneq. pose proof Ci_neq.
    assert (forall c p, (c < n)%nat -> inside (rshape g) p ->
      ginv o field c p = Ci / im alpha * (curl_curl_op v g E c p - alpha * (RtoC (k0 * k0) * E c p))) as HG.
    { intros c p Hc Hp. rewrite ginv_real; [|apply nm_fine|exact Hc|exact Hp].
      change (o_alpha o) with alpha. change (o_grid o) with (scaled k0 g). change (o_vectorial o) with v. do 2 f_equal.
      rewrite (curl_curl_scaled v k0 g field n) by (assumption || reflexivity).
      unfold field. rewrite (curl_curl_scal v g E (RtoC (k0 * k0)) n) by (assumption || reflexivity). rewrite RtoC_mult. field. assumption. }
    unfold wave_equation. fold n. split; intros H' c p Hc Hp; specialize (H' c p Hc Hp).
    - rewrite HG, nm_source, nm_chi in H' by assumption. unfold field in H'. rewrite tapply_scal in H'.
      transitivity (RtoC beta * im alpha / Ci * (Ci / im alpha * (curl_curl_op v g E c p - alpha * (RtoC (k0 * k0) * E c p)))
                    + RtoC beta * alpha * (RtoC (k0 * k0) * E c p) - RtoC (k0 * k0) * tapply eps E c p); [field; auto|].
      rewrite <- H'. field. auto.
    - rewrite HG, nm_source, nm_chi by assumption. unfold field. rewrite tapply_scal, <- H'. field. auto.
  Qed.

  Lemma update_zero_of_wave : wave_equation v g k0 beta eps E S -> vagree n (rshape g) (update o field) (fun _ _ => 0).
  Proof.
    intros H. apply balance in H. apply (proj2 (green_fixed o field nm_fine)) in H. change (vector_length o) with n in H.
    intros c p Hc Hp. unfold update. rewrite nm_chi by assumption.
    assert (vagree n (rshape g) (fun c p => green_op o (fun c p => chi_op o field c p + o_source o c p) c p - field c p) (fun _ _ => 0)) as H0.
    { intros d q Hd Hq. rewrite (H d q Hd Hq). ring. }
    assert (vagree n (rshape g) (tapply eps (fun c p => green_op o (fun c p => chi_op o field c p + o_source o c p) c p - field c p)) (tapply eps (fun _ _ => 0))) as H1.
    { apply tapply_vagree; [|exact H0]. unfold n. unfold fits in Hf. destruct v; [left; reflexivity|right]. destruct eps; [exact I|discriminate]. }
    rewrite (H1 c p Hc Hp), (H0 c p Hc Hp).
    replace (tapply eps (fun _ _ => 0) c p) with (RtoC 0); [unfold Cdiv; ring|]. symmetry. destruct eps; cbn [tapply]; [ring|].
    rewrite (csum_ext _ _ (fun _ => 0)) by (intros; ring). apply csum_zero.
  Qed.

  Lemma wave_of_update_zero : injective (rshape g) (o_chiEE o) -> vagree n (rshape g) (update o field) (fun _ _ => 0) ->
    wave_equation v g k0 beta eps E S.
  Proof.
    intros Hi H. apply balance. apply (proj1 (green_fixed o field nm_fine)). change (vector_length o) with n.
    change (rshape (o_grid o)) with (rshape g).
    set (d := fun c p => green_op o (fun c p => chi_op o field c p + o_source o c p) c p - field c p).
    assert (forall c p, (c < n)%nat -> inside (rshape g) p -> d c p = 0) as Hd.
    { intros c p Hc Hp. assert (forall i, (i < n)%nat -> tapply (o_chiEE o) d i p = 0) as H0.
      { intros i Hi'. apply (H i p Hi' Hp). }
      specialize (Hi p Hp). assert (fits v (o_chiEE o)) as Hf' by (unfold o; destruct eps, mu; cbn; auto).
      destruct (o_chiEE o) as [f|m]; cbn [tapply] in *.
      - specialize (H0 c Hc). destruct (Ceq_dec (d c p) 0) as [E0|E0]; [exact E0|]. exfalso. apply (Cmult_neq_0 _ _ Hi E0 H0).
      - unfold n in *. rewrite Hf' in *. apply (Hi (fun j => d j p)); assumption. }
    intros c p Hc Hp. specialize (Hd c p Hc Hp). unfold d in Hd.
    transitivity (green_op o (fun c p => chi_op o field c p + o_source o c p) c p - field c p + field c p); [ring|]. rewrite Hd. ring.
  Qed.
End NonMagnetic.
