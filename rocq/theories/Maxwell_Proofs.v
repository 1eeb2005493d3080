(** Reciprocity and bounds of the fields in magnetic and chiral media. *)
From Coq Require Import Reals Lra Lia List Arith Bool FunctionalExtensionality.
From Coquelicot Require Import Coquelicot.
Require Import Verif.Base Verif.Cplx Verif.CSum Verif.Field Verif.Fourier_Model Verif.Fourier_Spec Verif.Fourier_Proofs.
Require Import Verif.Vec_Model Verif.Vec_Spec Verif.Vec_Proofs Verif.Solver_Model Verif.Solver_Spec Verif.Solver_Proofs Verif.Solver_Convergence Verif.Choice_Model.
Require Import Verif.Derived_Model Verif.Derived_Spec Verif.Derived_Tensor Verif.Magnetic_Spec Verif.Magnetic_Norm Verif.Magnetic_Proofs Verif.Symmetry_Spec Verif.Symmetry_Reciprocity Verif.Symmetry_Limit Verif.Maxwell_Spec.
Import ListNotations.
Local Open Scope R_scope.
Local Open Scope C_scope.

Lemma Cmod_i : Cmod Ci = 1%R.
Proof. unfold Cmod, Ci. cbn [fst snd]. replace (_ + _)%R with 1%R by (cbn; ring). apply sqrt_1. Qed.
Lemma at_tapply t (F : vfield) p i : at_point t (fun j => F j p) p i = tapply t F i p.
Proof. destruct t; reflexivity. Qed.
Lemma tscal t F a c p : tapply t (fun c p => a * F c p) c p = a * tapply t F c p.
Proof. destruct t; cbn [tapply]; [ring|]. rewrite <- csum_scal. apply csum_ext. intros; ring. Qed.
Lemma tminus3 t F G c p : tapply t (fun c p => F c p - G c p) c p = tapply t F c p - tapply t G c p.
Proof. destruct t; cbn [tapply]; [ring|]. cbn [csum]. ring. Qed.

(** ** Units in which the impedance of vacuum is one *)
Section Normal.
  Variables (u : si) (g : raster) (k0 : R) (epsilon xi zeta mu : tensor).
  Hypotheses (U : physical u) (G : solvable true g k0).
  Let s := rshape g.
  Let Z := impedance u.
  Definition scaled_H (H : vfield) : vfield := fun c p => RtoC Z * H c p.
  Lemma dims : (rndim g <= 3)%nat.
  Proof. apply G. reflexivity. Qed.
  Lemma Z_pos : (0 < Z)%R.
  Proof. destruct U as (A & B & _). unfold Z, impedance. nra. Qed.
  Lemma normal E H J : maxwell u g k0 epsilon xi zeta mu E H J ->
    vagree 3 s (curl g 3 E) (fun c p => Ci * RtoC k0 * (tapply zeta E c p + tapply mu (scaled_H H) c p)) /\
    vagree 3 s (curl g 3 (scaled_H H)) (fun c p => RtoC Z * J c p - Ci * RtoC k0 * (tapply epsilon E c p + tapply xi (scaled_H H) c p)).
  Proof.
    intros [F A]. destruct U as (Hc & Hm & He & HU). assert (RtoC (c_light u) <> 0) as Hc' by (apply RtoC_neq; lra). split; intros c p Hc0 Hp.
    - rewrite (F c p Hc0 Hp). unfold constitutive_B, scaled_H. rewrite tscal. unfold Z, impedance. rewrite !RtoC_mult. field. exact Hc'.
    - unfold scaled_H at 1. rewrite (curl_scal g H (RtoC Z) dims c p Hc0 Hp), (A c p Hc0 Hp). unfold constitutive_D, scaled_H. rewrite tscal. unfold Z, impedance.
      assert (RtoC (c_light u) * RtoC (c_light u) * RtoC (mu_0 u) * RtoC (epsilon_0 u) = 1) as HU' by (rewrite <- !RtoC_mult, HU; reflexivity).
      transitivity (RtoC (mu_0 u * c_light u) * J c p - Ci * RtoC k0 * ((RtoC (c_light u) * RtoC (c_light u) * RtoC (mu_0 u) * RtoC (epsilon_0 u)) * tapply epsilon E c p + RtoC (mu_0 u) * RtoC (c_light u) * tapply xi H c p)).
      + rewrite !RtoC_mult. field. exact Hc'.
      + rewrite HU', RtoC_mult. ring.
  Qed.
End Normal.

(** ** Reciprocity *)
Lemma curl_conj g F : (rndim g <= 3)%nat -> odd_sizes (rshape g) -> vagree 3 (rshape g) (curl g 3 (conjugated F)) (conjugated (curl g 3 F)).
Proof.
  intros Hn O. unfold curl. apply convolve_conj; [exact (curl_pointwise g Hn)|]. intros F' c k Hc Hk. rewrite !curl_ft_cross by assumption.
  assert (W : forall i, wavevector g (neg (rshape g) k) i = (- wavevector g k i)%R).
  { intros i. unfold wavevector. destruct (Nat.ltb_spec i (rndim g)) as [L|L]; [|ring]. apply kvec_neg; [exact Hk|exact L|]. apply (proj1 (Forall_forall _ _) O). apply nth_In. exact L. }
  unfold cross3. destruct c as [|[|c]]; rewrite !W, Cconj_mult, Cconj_minus, !Cconj_mult, !Cconj_R, Cconj_Ci, !RtoC_opp; ring.
Qed.
Lemma product_curl g F G : proper g -> (rndim g <= 3)%nat -> odd_sizes (rshape g) -> product 3 (rshape g) F (curl g 3 G) = product 3 (rshape g) (curl g 3 F) G.
Proof.
  intros Hg Hn O. rewrite !product_vip, (curl_self_adjoint g (conjugated F) G Hg Hn). apply vagree_vip; [apply curl_conj; assumption|intros c p _ _; reflexivity].
Qed.
Lemma product_plus_scal n s a b F G H : product n s F (fun c p => a * G c p + b * H c p) = a * product n s F G + b * product n s F H.
Proof. rewrite !product_vip, vip_plus_r, !vip_scal_r. reflexivity. Qed.
Lemma product_dot s F G : product 3 s F G = sum_over s (fun p => dot (fun i => F i p) (fun i => G i p)).
Proof. apply product_points. Qed.
Section Lorentz.
  Variables (u : si) (g : raster) (k0 : R) (epsilon xi zeta mu : tensor).
  Hypotheses (U : physical u) (G : solvable true g k0) (O : odd_sizes (rshape g)) (Q : reciprocal (rshape g) epsilon xi zeta mu).
  Let s := rshape g.
  Let Z := impedance u.
  Lemma product_transposed t t' (a : C) F H : (forall p (u v : nat -> C), inside s p -> dot u (at_point t v p) = a * dot (at_point t' u p) v) ->
    product 3 s F (tapply t H) = a * product 3 s (tapply t' F) H.
  Proof.
    intros T. rewrite !product_dot, <- sum_over_scal. apply sum_over_ext. intros p Hp. specialize (T p (fun i => F i p) (fun i => H i p) Hp).
    transitivity (dot (fun i => F i p) (at_point t (fun i => H i p) p)); [apply csum_ext; intros i _; rewrite at_tapply; reflexivity|]. rewrite T. f_equal. apply csum_ext. intros i _. rewrite at_tapply. reflexivity.
  Qed.
  Lemma work E1 H1 J1 E2 H2 J2 : maxwell u g k0 epsilon xi zeta mu E1 H1 J1 -> maxwell u g k0 epsilon xi zeta mu E2 H2 J2 ->
    let h H := scaled_H u H in
    RtoC Z * product 3 s E1 J2 = Ci * RtoC k0 * (product 3 s (tapply mu (h H1)) (h H2) + product 3 s E1 (tapply epsilon E2)).
  Proof.
    intros M1 M2 h. destruct (normal u g k0 epsilon xi zeta mu U G E1 H1 J1 M1) as [F1 _]. destruct (normal u g k0 epsilon xi zeta mu U G E2 H2 J2 M2) as [_ A2].
    pose proof (product_curl g E1 (scaled_H u H2) (proj1 G) (dims g k0 G) O) as P.
    rewrite (product_vagree 3 (rshape g) E1 _ E1 _ (fun _ _ _ _ => eq_refl) A2), (product_vagree 3 (rshape g) _ (scaled_H u H2) _ (scaled_H u H2) F1 (fun _ _ _ _ => eq_refl)) in P.
    fold s in P. rewrite product_minus in P. fold Z in P.
    rewrite (product_vagree 3 s E1 (fun c p => tapply epsilon E2 c p + tapply xi (scaled_H u H2) c p) E1 (fun c p => 1 * tapply epsilon E2 c p + 1 * tapply xi (scaled_H u H2) c p)) in P by (intros c p _ _; ring).
    rewrite product_plus_scal, (product_transposed xi zeta (- (1)) E1 (scaled_H u H2)) in P by (intros p a b Hp; rewrite (proj2 (proj2 (Q p a b Hp))); ring).
    rewrite (product_comm 3 s (fun c p => Ci * RtoC k0 * (tapply zeta E1 c p + tapply mu (scaled_H u H1) c p)) (scaled_H u H2)) in P.
    rewrite (product_vagree 3 s (scaled_H u H2) (fun c p => Ci * RtoC k0 * (tapply zeta E1 c p + tapply mu (scaled_H u H1) c p)) (scaled_H u H2) (fun c p => (Ci * RtoC k0) * tapply zeta E1 c p + (Ci * RtoC k0) * tapply mu (scaled_H u H1) c p)) in P by (intros c p _ _; ring).
    rewrite product_plus_scal, !(product_comm 3 s (scaled_H u H2)) in P. unfold h.
    set (x := product 3 s E1 J2) in *. set (y := product 3 s (tapply zeta E1) (scaled_H u H2)) in *. set (m := product 3 s (tapply mu (scaled_H u H1)) (scaled_H u H2)) in *. set (e := product 3 s E1 (tapply epsilon E2)) in *.
    transitivity ((RtoC Z * x - Ci * RtoC k0 * (1 * e + 1 * (- (1) * y))) + Ci * RtoC k0 * (1 * e + 1 * (- (1) * y))); [ring|]. rewrite P. ring.
  Qed.
  Lemma lorentz E1 H1 J1 E2 H2 J2 : maxwell u g k0 epsilon xi zeta mu E1 H1 J1 -> maxwell u g k0 epsilon xi zeta mu E2 H2 J2 -> product 3 s E1 J2 = product 3 s E2 J1.
  Proof.
    intros M1 M2. pose proof (work E1 H1 J1 E2 H2 J2 M1 M2) as W1. pose proof (work E2 H2 J2 E1 H1 J1 M2 M1) as W2. cbv zeta in W1, W2.
    assert (X : RtoC Z * product 3 s E1 J2 = RtoC Z * product 3 s E2 J1).
    { rewrite W1, W2. f_equal. f_equal.
      - rewrite <- (Cmult_1_l (product 3 s (tapply mu (scaled_H u H2)) _)), <- (product_transposed mu mu 1) by (intros p a b Hp; rewrite (proj1 (proj2 (Q p a b Hp))); ring). apply product_comm.
      - rewrite (product_transposed epsilon epsilon 1) by (intros p a b Hp; rewrite (proj1 (Q p a b Hp)); ring). rewrite Cmult_1_l. apply product_comm. }
    pose proof (Z_pos u U) as ZP. fold Z in ZP. assert (RtoC Z <> 0) as Z0 by (apply RtoC_neq; lra).
    transitivity (/ RtoC Z * (RtoC Z * product 3 s E1 J2)); [field; exact Z0|]. rewrite X. field. exact Z0.
  Qed.
End Lorentz.

(** ** The fields are bounded by the sources *)
Lemma vip_cauchy n s F G : (Cmod (vip n s F G) <= vnorm n s F * vnorm n s G)%R.
Proof.
  unfold vnorm. rewrite <- sqrt_mult by apply vnorm2_nonneg. rewrite <- (sqrt_square (Cmod _)) by apply Cmod_ge_0. apply sqrt_le_1_alt. apply (cauchy_schwarz (n :: s) (flat F) (flat G)).
Qed.
Lemma two_products a b c d : (0 <= a -> 0 <= b -> 0 <= c -> 0 <= d -> a * c + b * d <= sqrt (a * a + b * b) * sqrt (c * c + d * d))%R.
Proof.
  intros Ha Hb Hc Hd. rewrite <- sqrt_mult by nra. rewrite <- (sqrt_square (a * c + b * d)) by nra. apply sqrt_le_1_alt. pose proof (Rle_0_sqr (a * d - b * c)) as H. unfold Rsqr in H. nra.
Qed.
Lemma absorbed_both s epsilon xi zeta mu loss (E H : vfield) : absorbs_both s epsilon xi zeta mu loss ->
  (loss * (vnorm2 3 s E + vnorm2 3 s H) <= snd (vip 3 s E (fun c p => tapply epsilon E c p + tapply xi H c p)%C) + snd (vip 3 s H (fun c p => tapply zeta E c p + tapply mu H c p)%C))%R.
Proof.
  intros A. change (snd (vip 3 s E (fun c p => tapply epsilon E c p + tapply xi H c p)%C) + snd (vip 3 s H (fun c p => tapply zeta E c p + tapply mu H c p)%C))%R
    with (snd (vip 3 s E (fun c p => tapply epsilon E c p + tapply xi H c p)%C + vip 3 s H (fun c p => tapply zeta E c p + tapply mu H c p)%C)).
  rewrite !vnorm2_points, !vip_points, <- sum_over_plus, <- rsum_over_plus, <- rsum_over_scal.
  assert (forall f, snd (sum_over s f) = rsum_over s (fun p => snd (f p))) as Hs.
  { clear. induction s as [|m s' IH]; intros f; [reflexivity|]. cbn [sum_over rsum_over].
    assert (forall k (h : nat -> C), snd (csum k h) = rsum k (fun i => snd (h i))) as Hc by (induction k as [|k IHk]; intros h; [reflexivity|]; cbn; rewrite IHk; reflexivity).
    rewrite Hc. apply rsum_ext. intros i _. apply IH. }
  rewrite Hs. apply rsum_over_le. intros p Hp. eapply Rle_trans; [apply (A p (fun i => E i p) (fun i => H i p) Hp)|]. apply Req_le. f_equal.
  rewrite <- csum_plus. apply csum_ext. intros i _. rewrite !at_tapply. reflexivity.
Qed.
Section Bounded.
  Variables (g : raster) (k0 : R) (epsilon xi zeta mu : tensor) (loss : R).
  Hypotheses (G : solvable true g k0) (K : (0 < k0)%R) (L : (0 < loss)%R) (A : absorbs_both (rshape g) epsilon xi zeta mu loss).
  Let s := rshape g.
  (** Electric and magnetic polarisations P and M as sources. *)
  Lemma bounded (E h P M : vfield) :
    vagree 3 s (curl g 3 E) (fun c p => Ci * RtoC k0 * (tapply zeta E c p + tapply mu h c p + M c p)) ->
    vagree 3 s (curl g 3 h) (fun c p => - Ci * RtoC k0 * (tapply epsilon E c p + tapply xi h c p + P c p)) ->
    (loss * sqrt (vnorm2 3 s E + vnorm2 3 s h) <= sqrt (vnorm2 3 s P + vnorm2 3 s M))%R.
  Proof.
    intros F B. pose proof (curl_self_adjoint g E h (proj1 G) (dims g k0 G)) as S. fold s in S.
    rewrite (vagree_vip 3 s E _ E _ (fun _ _ _ _ => eq_refl) B), (vagree_vip 3 s _ h _ h F (fun _ _ _ _ => eq_refl)) in S.
    rewrite vip_scal_r, <- (vip_conj 3 s h), vip_scal_r, Cconj_mult in S.
    rewrite (vip_plus_r 3 s E (fun c p => tapply epsilon E c p + tapply xi h c p) P), (vip_plus_r 3 s h (fun c p => tapply zeta E c p + tapply mu h c p) M) in S. pose proof (absorbed_both s epsilon xi zeta mu loss E h A) as D.
    set (a := vip 3 s E (fun c p => tapply epsilon E c p + tapply xi h c p)) in *. set (b := vip 3 s h (fun c p => tapply zeta E c p + tapply mu h c p)) in *.
    assert (X : (snd a + snd b = - (snd (vip 3 s E P) + snd (vip 3 s h M)))%R).
    { pose proof (f_equal fst S) as S'. destruct a as [a1 a2], b as [b1 b2], (vip 3 s E P) as [c1 c2], (vip 3 s h M) as [d1 d2]. cbn in S'. cbn [snd].
      apply Rmult_eq_reg_l with k0; [|lra]. nra. }
    pose proof (Cmod_Im_le (vip 3 s E P)) as I1. pose proof (Cmod_Im_le (vip 3 s h M)) as I2. pose proof (vip_cauchy 3 s E P) as C1. pose proof (vip_cauchy 3 s h M) as C2.
    pose proof (two_products (vnorm 3 s E) (vnorm 3 s h) (vnorm 3 s P) (vnorm 3 s M) (vnorm_nonneg _ _ _) (vnorm_nonneg _ _ _) (vnorm_nonneg _ _ _) (vnorm_nonneg _ _ _)) as T. rewrite !vnorm_sq in T.
    pose proof (Rle_abs (- snd (vip 3 s E P))) as R1. rewrite Rabs_Ropp in R1. pose proof (Rle_abs (- snd (vip 3 s h M))) as R2. rewrite Rabs_Ropp in R2.
    pose proof (vnorm2_nonneg 3 s E) as NE. pose proof (vnorm2_nonneg 3 s h) as Nh. set (w := (vnorm2 3 s E + vnorm2 3 s h)%R) in *. set (y := (vnorm2 3 s P + vnorm2 3 s M)%R) in *.
    assert (Hw : (0 <= w)%R) by (unfold w; lra). assert (Y : (loss * w <= sqrt w * sqrt y)%R) by lra. pose proof (sqrt_sqrt w Hw) as SW. pose proof (sqrt_pos w) as W0. pose proof (sqrt_pos y) as Y0.
    destruct (Rle_lt_or_eq_dec 0 (sqrt w) W0) as [Wp|Wz]; [|rewrite <- Wz; lra]. apply Rmult_le_reg_l with (sqrt w); [exact Wp|]. nra.
  Qed.
End Bounded.
Section Strength.
  Variables (u : si) (g : raster) (k0 : R).
  Hypotheses (U : physical u) (G : solvable true g k0) (K : (0 < k0)%R).
  Let s := rshape g.
  Let Z := impedance u.
  Lemma strength_scaled E H : strength u s E H = sqrt (vnorm2 3 s E + vnorm2 3 s (scaled_H u H)).
  Proof. unfold strength, scaled_H. rewrite vnorm2_scal, Cmod_R. pose proof (Z_pos u U). rewrite Rabs_pos_eq by lra. reflexivity. Qed.
  Lemma source_bound epsilon xi zeta mu loss E H J : (0 < loss)%R -> absorbs_both s epsilon xi zeta mu loss -> maxwell u g k0 epsilon xi zeta mu E H J ->
    (strength u s E H <= Z / (k0 * loss) * sqrt (vnorm2 3 s J))%R.
  Proof.
    intros L A M. destruct (normal u g k0 epsilon xi zeta mu U G E H J M) as [F B]. fold Z in B. pose proof (Z_pos u U) as ZP. fold Z in ZP.
    pose proof (bounded g k0 epsilon xi zeta mu loss G K L A E (scaled_H u H) (fun c p => Ci * RtoC (Z / k0) * J c p) (fun _ _ => 0)) as X.
    assert (ZK : (0 < Z / k0)%R) by (apply Rdiv_lt_0_compat; assumption).
    rewrite strength_scaled. fold s in X. rewrite vnorm2_scal, vnorm2_zero_field, Rplus_0_r, Cmod_mult, Cmod_i, Cmod_R, Rmult_1_l, Rabs_pos_eq, sqrt_mult_alt, sqrt_square in X
      by first [apply Rmult_le_pos; apply Rlt_le, ZK | apply Rlt_le, ZK].
    apply Rmult_le_reg_l with loss; [exact L|]. eapply Rle_trans; [apply X|].
    - intros c p Hc Hp. rewrite (F c p Hc Hp). ring.
    - intros c p Hc Hp. rewrite (B c p Hc Hp). unfold Rdiv. rewrite RtoC_mult, RtoC_inv by lra.
      transitivity (- (Ci * Ci) * RtoC Z * J c p - Ci * RtoC k0 * (tapply epsilon E c p + tapply xi (scaled_H u H) c p)); [rewrite Ci_sq; ring|]. field. apply RtoC_neq. lra.
    - apply Req_le. field. lra.
  Qed.
  Lemma perturbed e1 xi1 zeta1 mu1 e2 xi2 zeta2 mu2 loss d E1 H1 E2 H2 J : (0 < loss)%R -> (0 <= d)%R -> absorbs_both s e1 xi1 zeta1 mu1 loss -> responses_near s e1 xi1 zeta1 mu1 e2 xi2 zeta2 mu2 d ->
    maxwell u g k0 e1 xi1 zeta1 mu1 E1 H1 J -> maxwell u g k0 e2 xi2 zeta2 mu2 E2 H2 J ->
    (strength u s (fun c p => E1 c p - E2 c p)%C (fun c p => H1 c p - H2 c p)%C <= d / loss * strength u s E2 H2)%R.
  Proof.
    intros L D A N M1 M2. destruct (normal u g k0 e1 xi1 zeta1 mu1 U G E1 H1 J M1) as [F1 B1]. destruct (normal u g k0 e2 xi2 zeta2 mu2 U G E2 H2 J M2) as [F2 B2]. fold Z in B1, B2.
    set (h1 := scaled_H u H1) in *. set (h2 := scaled_H u H2) in *.
    set (P := fun c p => tapply e1 E2 c p + tapply xi1 h2 c p - (tapply e2 E2 c p + tapply xi2 h2 c p)).
    set (M := fun c p => tapply zeta1 E2 c p + tapply mu1 h2 c p - (tapply zeta2 E2 c p + tapply mu2 h2 c p)).
    assert (Cm : forall X Y, vagree 3 s (curl g 3 (fun c p => X c p - Y c p)) (fun c p => curl g 3 X c p - curl g 3 Y c p)).
    { intros X Y c p Hc Hp. transitivity (curl g 3 (fun c p => X c p + (- (1)) * Y c p) c p); [apply (curl_vagree g _ _ (dims g k0 G)); [intros c' p' _ _; ring|exact Hc|exact Hp]|].
      rewrite (curl_plus g X (fun c p => (- (1)) * Y c p) (dims g k0 G) c p Hc Hp), (curl_scal g Y (- (1)) (dims g k0 G) c p Hc Hp). ring. }
    pose proof (bounded g k0 e1 xi1 zeta1 mu1 loss G K L A (fun c p => E1 c p - E2 c p) (fun c p => h1 c p - h2 c p) P M) as X. fold s in X.
    assert (Y : (vnorm2 3 s P + vnorm2 3 s M <= d * d * (vnorm2 3 s E2 + vnorm2 3 s h2))%R).
    { rewrite !vnorm2_points, <- !rsum_over_plus, <- rsum_over_scal. apply rsum_over_le. intros p Hp. eapply Rle_trans; [|apply (N p (fun i => E2 i p) (fun i => h2 i p) Hp)]. apply Req_le.
      f_equal; apply rsum_ext; intros i _; cbv beta; rewrite !at_tapply; reflexivity. }
    rewrite !strength_scaled. fold h2. assert (V : vnorm2 3 s (scaled_H u (fun c p => H1 c p - H2 c p)) = vnorm2 3 s (fun c p => h1 c p - h2 c p)) by (apply vagree_vnorm2; intros c p _ _; unfold h1, h2, scaled_H; ring). rewrite V.
    apply Rmult_le_reg_l with loss; [exact L|]. eapply Rle_trans; [apply X|].
    - intros c p Hc Hp. rewrite (Cm E1 E2 c p Hc Hp), (F1 c p Hc Hp), (F2 c p Hc Hp), !tminus3. unfold M. ring.
    - intros c p Hc Hp. rewrite (Cm h1 h2 c p Hc Hp), (B1 c p Hc Hp), (B2 c p Hc Hp), !tminus3. unfold P. ring.
    - eapply Rle_trans; [apply sqrt_le_1_alt; exact Y|]. rewrite sqrt_mult_alt by nra. rewrite sqrt_square by exact D. apply Req_le. field. lra.
  Qed.
End Strength.

(** ** What the iteration computes *)
Lemma absorbs_dissipates s epsilon xi zeta mu loss : (0 <= loss)%R -> absorbs_both s epsilon xi zeta mu loss -> dissipates s epsilon xi zeta mu loss.
Proof.
  intros L A p E H Hp at_p. eapply Rle_trans; [|exact (A p E H Hp)]. apply Rmult_le_compat_l; [exact L|]. unfold length2. assert (0 <= rsum 3 (fun i => Cmod (H i) * Cmod (H i)))%R; [|lra].
  cbn [rsum]. pose proof (Rle_0_sqr (Cmod (H 0%nat))). pose proof (Rle_0_sqr (Cmod (H 1%nat))). pose proof (Rle_0_sqr (Cmod (H 2%nat))). unfold Rsqr in *. lra.
Qed.
Lemma maxwell_vagree u g k0 epsilon xi zeta mu E E' H J : (rndim g <= 3)%nat -> vagree 3 (rshape g) E E' -> maxwell u g k0 epsilon xi zeta mu E H J -> maxwell u g k0 epsilon xi zeta mu E' H J.
Proof.
  intros Hn V [F A]. split; intros c p Hc Hp.
  - rewrite <- (curl_vagree g E E' Hn V c p Hc Hp), (F c p Hc Hp). unfold constitutive_B. rewrite (tapply_ext3 _ zeta E E' V c p Hc Hp). reflexivity.
  - rewrite (A c p Hc Hp). unfold constitutive_D. rewrite (tapply_ext3 _ epsilon E E' V c p Hc Hp). reflexivity.
Qed.
Lemma computed eps u g k0 epsilon xi zeta mu settled thick J loss E : physical u -> magnetic_problem eps g k0 epsilon xi zeta mu settled loss ->
  computes 3 (rshape g) k0 (construct eps g k0 true epsilon xi zeta mu settled thick (driving u k0 J)) E -> exists H, maxwell u g k0 epsilon xi zeta mu E H J.
Proof.
  intros U (He & He1 & Hs & Hk & (nu & Hnu & kappa & Hc) & Hm & Hp & Hl & Ha) C.
  pose proof (absorbs_dissipates _ _ _ _ _ _ (Rlt_le _ _ Hl) Ha) as Hd.
  destruct (mp_converges eps u g k0 epsilon xi zeta mu nu settled thick J kappa loss He He1 U Hs Hk Hnu Hm Hp Hc Hd (Rlt_le _ _ Hl) (fun _ _ => 0) Hl) as (E' & H & q & Hq & M & _ & B).
  exists H. apply (maxwell_vagree u g k0 epsilon xi zeta mu E'); [apply Hs; reflexivity| |exact M].
  set (n0 := vnorm2 3 (rshape g) (fun c p => electric_field k0 (fun _ _ => 0) c p - E' c p)%C) in *.
  assert (V : vnorm2 3 (rshape g) (fun c p => E' c p - E c p)%C = 0%R).
  { set (o := construct eps g k0 true epsilon xi zeta mu settled thick (driving u k0 J)) in *. set (X := fun i => electric_field k0 (Nat.iter i (next_field o) (fun _ _ => 0))).
    assert (T : forall i, (vnorm2 3 (rshape g) (fun c p => E' c p - E c p)%C <= 2 * (q ^ i * n0) + 2 * vnorm2 3 (rshape g) (fun c p => X i c p - E c p)%C)%R).
    { intros i. rewrite (vagree_vnorm2 3 (rshape g) (fun c p => E' c p - E c p)%C (fun c p => (E' c p - X i c p) + (X i c p - E c p))) by (intros c p _ _; ring). eapply Rle_trans; [apply vnorm2_sum_le|]. apply Rplus_le_compat_r, Rmult_le_compat_l; [lra|].
      eapply Rle_trans; [|exact (B i)]. apply Req_le. rewrite (vagree_vnorm2 3 (rshape g) (fun c p => E' c p - X i c p)%C (fun c p => (- (1)) * (X i c p - E' c p))) by (intros c p _ _; ring). rewrite vnorm2_scal, Cmod_opp, Cmod_1. unfold X. ring. }
    apply Rle_antisym; [|apply vnorm2_nonneg].
    assert (Lim : is_lim_seq (fun i => (2 * (q ^ i * n0) + 2 * vnorm2 3 (rshape g) (fun c p => X i c p - E c p)%C)%R) (2 * (0 * n0) + 2 * 0)%R).
    { apply is_lim_seq_plus'; apply is_lim_seq_mult'; try apply is_lim_seq_const; [apply is_lim_seq_mult'; [apply is_lim_seq_geom; rewrite Rabs_pos_eq; lra|apply is_lim_seq_const]|exact (C (fun _ _ => 0))]. }
    replace (2 * (0 * n0) + 2 * 0)%R with 0%R in Lim by ring. exact (is_lim_seq_le (fun _ => vnorm2 3 (rshape g) (fun c p => E' c p - E c p)%C) _ (Finite _) (Finite 0%R) T (is_lim_seq_const _) Lim). }
  intros c p Hc' Hp'. pose proof (vnorm2_zero 3 (rshape g) _ V c p Hc' Hp') as Z. cbv beta in Z. transitivity (E' c p - E c p + E c p); [ring|rewrite Z; ring].
Qed.
Lemma computed_exists eps u g k0 epsilon xi zeta mu settled thick J loss : physical u -> magnetic_problem eps g k0 epsilon xi zeta mu settled loss ->
  exists E, computes 3 (rshape g) k0 (construct eps g k0 true epsilon xi zeta mu settled thick (driving u k0 J)) E.
Proof.
  intros U (He & He1 & Hs & Hk & (nu & Hnu & kappa & Hc) & Hm & Hp & Hl & Ha).
  pose proof (absorbs_dissipates _ _ _ _ _ _ (Rlt_le _ _ Hl) Ha) as Hd.
  pose proof (fun F => mp_converges eps u g k0 epsilon xi zeta mu nu settled thick J kappa loss He He1 U Hs Hk Hnu Hm Hp Hc Hd (Rlt_le _ _ Hl) F Hl) as X. cbv zeta in X.
  destruct (X (fun _ _ => 0)) as (E & H & q & Hq & M & Un & B). exists E. intros F. destruct (X F) as (E' & H' & q' & Hq' & M' & Un' & B').
  apply (is_lim_seq_le_le (fun _ => 0%R) _ (fun i => (q' ^ i * vnorm2 3 (rshape g) (fun c p => electric_field k0 F c p - E' c p)%C)%R)).
  - intros i. split; [apply vnorm2_nonneg|]. eapply Rle_trans; [|exact (B' i)]. apply Req_le. apply vagree_vnorm2. intros c p Hc' Hp'. rewrite (Un E' H' M' c p Hc' Hp'). reflexivity.
  - apply is_lim_seq_const.
  - replace (Finite 0%R) with (Finite (0 * vnorm2 3 (rshape g) (fun c p => electric_field k0 F c p - E' c p)%C)%R) by (f_equal; ring). apply is_lim_seq_mult'; [apply is_lim_seq_geom; rewrite Rabs_pos_eq; lra|apply is_lim_seq_const].
Qed.

(** ** Only one solution *)
Lemma unique u g k0 epsilon xi zeta mu loss E1 H1 E2 H2 J : physical u -> solvable true g k0 -> (0 < k0)%R -> (0 < loss)%R -> absorbs_both (rshape g) epsilon xi zeta mu loss ->
  maxwell u g k0 epsilon xi zeta mu E1 H1 J -> maxwell u g k0 epsilon xi zeta mu E2 H2 J -> vagree 3 (rshape g) E1 E2.
Proof.
  intros U G K L A M1 M2. pose proof (perturbed u g k0 U G K epsilon xi zeta mu epsilon xi zeta mu loss 0 E1 H1 E2 H2 J L (Rle_refl 0) A) as P.
  assert (N : responses_near (rshape g) epsilon xi zeta mu epsilon xi zeta mu 0).
  { intros p E H _. apply Req_le. unfold length2. cbn [rsum]. rewrite !(fun x : C => Cplus_opp_r x : x - x = 0), !Cmod_0. ring. }
  specialize (P N M1 M2). replace (0 / loss * strength u (rshape g) E2 H2)%R with 0%R in P by (field; lra). unfold strength in P.
  set (d := fun c p => E1 c p - E2 c p) in *. set (e := fun c p => H1 c p - H2 c p) in *.
  pose proof (vnorm2_nonneg 3 (rshape g) d) as N1. pose proof (vnorm2_nonneg 3 (rshape g) e) as N2. pose proof (Rle_0_sqr (impedance u)) as N3. unfold Rsqr in N3. pose proof (Rmult_le_pos _ _ N3 N2) as N4.
  assert (Z : (vnorm2 3 (rshape g) d + impedance u * impedance u * vnorm2 3 (rshape g) e = 0)%R) by (apply sqrt_eq_0; [lra|]; pose proof (sqrt_pos (vnorm2 3 (rshape g) d + impedance u * impedance u * vnorm2 3 (rshape g) e)); lra).
  intros c p Hc Hp. pose proof (vnorm2_zero 3 (rshape g) d ltac:(lra) c p Hc Hp) as Y. unfold d in Y. transitivity (E1 c p - E2 c p + E2 c p); [ring|]. rewrite Y. ring.
Qed.
Lemma solution_computed eps u g k0 epsilon xi zeta mu settled thick J loss E H : physical u -> magnetic_problem eps g k0 epsilon xi zeta mu settled loss -> maxwell u g k0 epsilon xi zeta mu E H J ->
  computes 3 (rshape g) k0 (construct eps g k0 true epsilon xi zeta mu settled thick (driving u k0 J)) E.
Proof.
  intros U P M. destruct (computed_exists eps u g k0 epsilon xi zeta mu settled thick J loss U P) as (E' & C). destruct (computed eps u g k0 epsilon xi zeta mu settled thick J loss E' U P C) as (H' & M').
  destruct P as (_ & _ & Hs & Hk & _ & _ & _ & Hl & Ha). pose proof (unique u g k0 epsilon xi zeta mu loss E' H' E H J U Hs Hk Hl Ha M' M) as V.
  intros F. apply (is_lim_seq_ext (fun i => vnorm2 3 (rshape g) (fun c p => electric_field k0 (Nat.iter i (next_field (construct eps g k0 true epsilon xi zeta mu settled thick (driving u k0 J))) F) c p - E' c p)%C)).
  - intros i. apply vagree_vnorm2. intros c p Hc Hp. rewrite (V c p Hc Hp). reflexivity.
  - apply C.
Qed.

(** ** Not on grids with even sizes *)
Definition two : raster := {| rshape := [2]%nat; rstep := [1]%R |}.
Lemma two_proper : proper two.
Proof. repeat split; cbn; repeat constructor; lra || lia. Qed.
Lemma two_k : wavevector two [1]%nat 0 = (- PI)%R /\ wavevector two [1]%nat 1 = 0%R /\ wavevector two [1]%nat 2 = 0%R.
Proof. unfold wavevector, kvec, k_axis. cbn. repeat split. field. Qed.
Section Chiral.
  Variables (u : si) (k0 : R) (epsilon xi zeta mu : C).
  Hypotheses (U : physical u) (K : k0 <> 0%R) (Mu : mu <> 0).
  Let Z := impedance u.
  (** A wave with amplitude a and the highest frequency of the grid. *)
  Definition wave (a : nat -> C) : vfield := fun c p => a c * plane_wave two [1]%nat p.
  Definition turn (a : nat -> C) : nat -> C := fun c => Ci * cross3 (fun i => RtoC (wavevector two [1]%nat i)) a c.
  Lemma curl_wave a : vagree 3 [2]%nat (curl two 3 (wave a)) (wave (turn a)).
  Proof. exact (curl_plane_wave two a [1]%nat two_proper ltac:(cbn; lia) ltac:(repeat constructor; lia)). Qed.
  Definition magnet (a : nat -> C) : nat -> C := fun c => (turn a c / (Ci * RtoC k0) - zeta * a c) / mu.
  Definition drive (a : nat -> C) : nat -> C := fun c => (turn (magnet a) c + Ci * RtoC k0 * (epsilon * a c + xi * magnet a c)) / RtoC Z.
  Lemma wave_solves a : maxwell u two k0 (tuniform epsilon) (tuniform xi) (tuniform zeta) (tuniform mu) (wave a) (wave (fun c => magnet a c / RtoC Z)) (wave (drive a)).
  Proof.
    destruct U as (Hc & Hm & He & HU). assert (RtoC (c_light u) <> 0) as Hc' by (apply RtoC_neq; lra). assert (RtoC (mu_0 u) <> 0) as Hm' by (apply RtoC_neq; lra). assert (RtoC k0 <> 0) as Hk' by (apply RtoC_neq; exact K).
    assert (Ci <> 0) as Hi by (intros X; apply (f_equal snd) in X; cbn in X; lra).
    assert (RtoC Z = RtoC (mu_0 u) * RtoC (c_light u)) as EZ by (unfold Z, impedance; rewrite RtoC_mult; reflexivity).
    assert (RtoC (epsilon_0 u) = / (RtoC (c_light u) * RtoC (c_light u) * RtoC (mu_0 u))) as Ee.
    { assert (epsilon_0 u = / (c_light u * c_light u * mu_0 u))%R as -> by (apply Rmult_eq_reg_l with (c_light u * c_light u * mu_0 u)%R; [rewrite HU; field; split; lra|nra]). rewrite RtoC_inv, !RtoC_mult by nra. reflexivity. }
    assert (turn (fun c => magnet a c / RtoC Z) = fun c => turn (magnet a) c / RtoC Z) as ET.
    { apply functional_extensionality. intros c. unfold turn, cross3. destruct c as [|[|c]]; rewrite EZ; field; split; assumption. }
    split; intros c p Hc0 Hp.
    - rewrite (curl_wave a c p Hc0 Hp). unfold constitutive_B, wave. cbn [tapply tuniform]. unfold magnet. rewrite EZ. rewrite RtoC_mult. field. repeat split; assumption.
    - rewrite (curl_wave _ c p Hc0 Hp), ET. unfold constitutive_D, wave. cbn [tapply tuniform]. unfold drive. rewrite EZ, Ee, RtoC_mult. field. repeat split; assumption.
  Qed.
  Definition unit (axis : nat) (c : nat) : C := if Nat.eqb c axis then 1 else 0.
  Lemma drive_y : drive (unit 2) 1%nat = Ci * RtoC PI * (xi - zeta) / (mu * RtoC Z).
  Proof.
    destruct two_k as (K0 & K1 & K2). pose proof (Z_pos u U) as ZP. fold Z in ZP. assert (RtoC Z <> 0) as Z0 by (apply RtoC_neq; lra). assert (RtoC k0 <> 0) as Hk' by (apply RtoC_neq; exact K). assert (Ci <> 0) as Hi by (intros X; apply (f_equal snd) in X; cbn in X; lra).
    unfold drive, magnet, turn, cross3. cbn [unit Nat.eqb]. rewrite K0, K1, K2, RtoC_opp. unfold unit. cbn [Nat.eqb]. field. repeat split; assumption.
  Qed.
  Lemma drive_z : drive (unit 1) 2%nat = - (Ci * RtoC PI * (xi - zeta) / (mu * RtoC Z)).
  Proof.
    destruct two_k as (K0 & K1 & K2). pose proof (Z_pos u U) as ZP. fold Z in ZP. assert (RtoC Z <> 0) as Z0 by (apply RtoC_neq; lra). assert (RtoC k0 <> 0) as Hk' by (apply RtoC_neq; exact K). assert (Ci <> 0) as Hi by (intros X; apply (f_equal snd) in X; cbn in X; lra).
    unfold drive, magnet, turn, cross3. cbn [unit Nat.eqb]. rewrite K0, K1, K2, RtoC_opp. unfold unit. cbn [Nat.eqb]. field. repeat split; assumption.
  Qed.
  Lemma wave_square p : inside [2]%nat p -> plane_wave two [1]%nat p * plane_wave two [1]%nat p = 1.
  Proof.
    intros Hp. rewrite !(plane_wave_phase two) by (try exact two_proper; try (repeat constructor; lia); assumption). rewrite <- cis_plus. inversion Hp as [|? i ? q Hi Hq]; subst. inversion Hq; subst. cbn [phase rshape two].
    match goal with |- cis ?x = _ => replace x with (2 * PI * INR i)%R end; [apply cis_2PI_nat|]. cbn [INR]. field.
  Qed.
  Lemma waves_product a b : product 3 [2]%nat (wave a) (wave b) = RtoC 2 * dot a b.
  Proof.
    rewrite product_points, (sum_over_ext [2]%nat _ (fun _ => dot a b)).
    - rewrite sum_over_const. cbn [fold_right INR Nat.mul Nat.add]. do 2 f_equal; ring.
    - intros p Hp. unfold dot, wave. apply csum_ext. intros c _. transitivity (a c * b c * (plane_wave two [1]%nat p * plane_wave two [1]%nat p)); [ring|]. rewrite wave_square by exact Hp. ring.
  Qed.
  Lemma not_reciprocal : xi <> zeta -> product 3 [2]%nat (wave (unit 1)) (wave (drive (unit 2))) <> product 3 [2]%nat (wave (unit 2)) (wave (drive (unit 1))).
  Proof.
    intros N. rewrite !waves_product.
    assert (forall b, dot (unit 1) b = b 1%nat) as D1 by (intros b; unfold dot, unit; cbn [csum Nat.eqb]; ring). assert (forall b, dot (unit 2) b = b 2%nat) as D2 by (intros b; unfold dot, unit; cbn [csum Nat.eqb]; ring).
    rewrite D1, D2, drive_y, drive_z. intros H.
    pose proof (Z_pos u U) as ZP. fold Z in ZP. assert (RtoC Z <> 0) as Z0 by (apply RtoC_neq; lra). assert (Ci <> 0) as Hi by (intros X; apply (f_equal snd) in X; cbn in X; lra). pose proof PI_RGT_0 as PP. assert (RtoC PI <> 0) as P0 by (apply RtoC_neq; lra).
    set (x := Ci * RtoC PI * (xi - zeta) / (mu * RtoC Z)) in *. assert (x = 0) as X.
    { transitivity ((RtoC 2 * x - RtoC 2 * - x) / RtoC 4); [|rewrite H; field; apply RtoC_neq; lra].
      replace (RtoC 4) with (RtoC 2 + RtoC 2) by (rewrite <- RtoC_plus; f_equal; lra). field. rewrite <- RtoC_plus. apply RtoC_neq. lra. }
    apply N. transitivity (xi - zeta + zeta); [ring|]. replace (xi - zeta) with (x * (mu * RtoC Z) / (Ci * RtoC PI)) by (unfold x; field; repeat split; assumption). rewrite X. field. split; assumption.
  Qed.
End Chiral.
