(** The operators that the constructor prepares for magnetic media. *)
From Coq Require Import Reals Lra Lia List Arith Bool FunctionalExtensionality.
Require Import Verif.Base Verif.Cplx Verif.CSum Verif.Field Verif.Fourier_Model Verif.Fourier_Spec Verif.Fourier_Proofs Verif.Display_Model.
Require Import Verif.Modes_Model Verif.Roots_Model Verif.Eigen_Bound.
Require Import Verif.Vec_Model Verif.Vec_Spec Verif.Vec_Proofs Verif.Solver_Model Verif.Solver_Spec Verif.Solver_Proofs.
Require Import Verif.Solver_Convergence Verif.Solver_Limit Verif.Solver_Choice Verif.Choice_Model Verif.Choice_Proofs.
Require Import Verif.Derived_Model Verif.Derived_Spec Verif.Derived_Tensor Verif.Solver_Maxwell Verif.Derived_Proofs.
Require Import Verif.Operator_Convergence Verif.Magnetic_Norm Verif.Magnetic_Spec.
Import ListNotations.
Local Open Scope R_scope.
Local Open Scope C_scope.

(** ** The computed norms *)
Lemma sigma_HH_EE eps s mu beta : sigma_HH eps s mu beta = sigma_EE eps s (tinv mu) 1 beta.
Proof.
  unfold sigma_HH, sigma_EE. do 3 f_equal. unfold chiHH_beta2, delta_tensor.
  assert (Cmod (RtoC (1 * beta)) * Cmod (RtoC (1 * beta)) = Rabs beta * Rabs beta)%R as -> by (rewrite Cmod_R, Rmult_1_l; reflexivity). rewrite Rmult_1_l.
  destruct (tinv mu) as [f|f]; cbn [tmul tadjoint tscale tadd tsub]; f_equal.
  - apply functional_extensionality. intros p. ring.
  - apply functional_extensionality. intros i. apply functional_extensionality. intros j. apply functional_extensionality. intros p. ring.
Qed.
Lemma singular_EE eps s t : largest_singularvalue eps s t = sigma_EE eps s t 0 1.
Proof.
  unfold largest_singularvalue, sigma_EE. rewrite Rabs_R1. unfold Rdiv. rewrite Rinv_1, Rmult_1_r. do 2 f_equal. unfold delta_tensor.
  rewrite Rmult_0_l, Cmod_0, Rmult_0_l. rewrite Cconj_R.
  destruct t as [f|f]; cbn [tmul tadjoint tscale tadd tsub]; f_equal.
  - apply functional_extensionality. intros p. ring.
  - apply functional_extensionality. intros i. apply functional_extensionality. intros j. apply functional_extensionality. intros p. ring.
Qed.
Lemma sigma_EE_nonneg eps s t ar beta : (0 < beta)%R -> (0 <= sigma_EE eps s t ar beta)%R.
Proof. intros Hb. unfold sigma_EE. apply Rmult_le_pos; [apply sqrt_pos|]. left. apply Rinv_0_lt_compat, Rabs_pos_lt. lra. Qed.

(** A pointwise bound is a bound on the norm of the field. *)
Lemma deviates_norm n s t beta ar r d : (0 <= r)%R -> deviates n s t beta ar r ->
  (vnorm n s (fun c p => tapply t d c p / RtoC beta - RtoC ar * d c p)%C <= r * vnorm n s d)%R.
Proof.
  intros Hr H. apply vnorm_le; [exact Hr|]. rewrite !vnorm2_points, <- rsum_over_scal. apply rsum_over_le. intros p Hp.
  eapply Rle_trans; [|apply (H p (fun i => d i p) Hp)]. apply Req_le. apply rsum_ext. intros i _.
  replace (tapply t (fun j _ => d j p) i p) with (tapply t d i p) by (destruct t; reflexivity). reflexivity.
Qed.
(** The computed value exceeds the norm but for rounding in mat3_eigh. *)
Lemma sigma_norm eps s t ar beta d : (0 < eps)%R -> (2 * eps <= 1)%R -> (0 < beta)%R ->
  (vnorm 3 s (fun c p => tapply t d c p / RtoC beta - RtoC ar * d c p)%C <= (sigma_EE eps s t ar beta + sqrt (2 * sqrt eps) / beta) * vnorm 3 s d)%R.
Proof.
  intros He H1 Hb. pose proof (sigma_EE_nonneg eps s t ar beta Hb) as H0. pose proof (sqrt_pos (2 * sqrt eps)) as Hq. pose proof (sqrt_pos eps) as Hq'.
  assert (0 <= sqrt (2 * sqrt eps) / beta)%R as Hd by (apply Rmult_le_pos; [exact Hq|left; apply Rinv_0_lt_compat, Hb]).
  apply (deviates_norm 3); [lra|]. apply (sigma_EE_bounds eps He H1 true); [destruct t; exact I || reflexivity|exact Hb|lra|].
  assert (2 * sqrt eps / (beta * beta) = sqrt (2 * sqrt eps) / beta * (sqrt (2 * sqrt eps) / beta))%R as ->.
  { transitivity (sqrt (2 * sqrt eps) * sqrt (2 * sqrt eps) / (beta * beta))%R; [rewrite sqrt_sqrt by lra; reflexivity|field; lra]. }
  nra.
Qed.

Section Magnetic.
  Variables (eps : R) (g : raster) (k0 : R) (alpha : C) (beta : R) (epsilon xi zeta mu nu : tensor) (S : vfield).
  Hypothesis He : (0 < eps)%R.
  Hypothesis He1 : (2 * eps <= 1)%R.
  Hypothesis Hs : solvable true g k0.
  Hypothesis Hk : (0 < k0)%R.
  Hypothesis Hb : (0 < beta)%R.
  Hypothesis Hnu : inverse_of (rshape g) mu nu.
  Let s := rshape g.
  Let T := medium_op g k0 beta epsilon xi zeta nu.
  Let N := vnorm 3 s.
  Let D := sigma_D (rstep g) k0.

  Lemma mc_ndim : (rndim g <= 3)%nat.
  Proof. apply Hs. reflexivity. Qed.
  Lemma mc_beta : beta <> 0%R.
  Proof. lra. Qed.
  Lemma mc_D : (0 <= D)%R.
  Proof. unfold D, sigma_D. apply Rmult_le_pos; [apply sqrt_pos|left; apply Rinv_0_lt_compat, Hk]. Qed.
  (** The curl in units of the wave number. *)
  Lemma mc_curl F : (N (fun c p => / RtoC k0 * curl g 3 F c p)%C <= D * N F)%R.
  Proof.
    unfold N. rewrite vnorm_scal. rewrite Cmod_inv by (apply RtoC_neq; lra). rewrite Cmod_R, Rabs_pos_eq by lra.
    assert (vnorm 3 s (curl g 3 F) <= sqrt (nyquist2 (rstep g)) * vnorm 3 s F)%R as H.
    { apply vnorm_le; [apply sqrt_pos|]. rewrite sqrt_sqrt by apply nyquist2_nonneg. destruct Hs as (Hg & _ & _). apply curl_norm; [exact Hg|exact mc_ndim|].
      intros k Hkk. apply k2_le; assumption. }
    unfold D, sigma_D. fold (nyquist2 (rstep g)). unfold Rdiv. rewrite (Rmult_comm _ (/ k0)), Rmult_assoc. apply Rmult_le_compat_l; [left; apply Rinv_0_lt_compat, Hk|exact H].
  Qed.
  Let tiny := sqrt (2 * sqrt eps).

  Lemma mc_deviation ar d : (N (fun c p => T d c p - RtoC ar * d c p)%C <=
    (singular_value_sum eps s D epsilon xi zeta mu ar beta + tiny / beta * ((1 + D) * (1 + D))) * N d)%R.
  Proof.
    pose proof mc_ndim as Hn. pose proof mc_D as HD0.
    set (d1 := (fun c p => / RtoC k0 * curl g 3 d c p) : vfield).
    set (A := fun c p => tapply (effective_epsilon epsilon xi zeta mu) d c p / RtoC beta - RtoC ar * d c p).
    set (B := fun c p => tapply (tscale Ci (tmul (tinv mu) zeta)) d1 c p / RtoC 1 - RtoC 0 * d1 c p).
    set (G := fun c p => tapply (tscale (- Ci) (tmul xi (tinv mu))) d c p / RtoC 1 - RtoC 0 * d c p).
    set (H := fun c p => tapply (tinv mu) d1 c p / RtoC beta - RtoC 1 * d1 c p).
    assert (RtoC k0 <> 0) as Hk0 by (apply RtoC_neq; lra). assert (RtoC beta <> 0) as Hb0 by (apply RtoC_neq; lra).
    assert (vagree 3 s (fun c p => T d c p - RtoC ar * d c p)
      (fun c p => A c p + (/ RtoC beta * B c p + (/ RtoC beta * (/ RtoC k0 * curl g 3 G c p) + - (1) * (/ RtoC k0 * curl g 3 H c p))))) as E.
    { intros c p Hc Hp.
      assert (vagree 3 s G (fun c p => - Ci * tapply xi (tapply nu d) c p)) as HG.
      { intros c' p' Hc' Hp'. unfold G. rewrite tapply_tscale, tapply_tmul. rewrite (tapply_ext3 s xi _ _ (tinv_inverse s mu nu d Hnu) c' p' Hc' Hp'). field. apply RtoC_neq. lra. }
      assert (vagree 3 s H (fun c p => (/ RtoC beta * / RtoC k0) * tapply nu (curl g 3 d) c p + - / RtoC k0 * curl g 3 d c p)) as HH.
      { intros c' p' Hc' Hp'. unfold H. rewrite (tinv_inverse s mu nu d1 Hnu c' p' Hc' Hp'). unfold d1. rewrite tapply_scal. field. auto. }
      rewrite (curl_vagree g _ _ Hn HG c p Hc Hp), (curl_vagree g _ _ Hn HH c p Hc Hp), curl_plus, !curl_scal by assumption.
      unfold A, B. unfold effective_epsilon. rewrite tapply_tsub by assumption. rewrite tapply_tscale, !tapply_tmul.
      assert (vagree 3 s (tapply (tscale (- Ci) (tscale Ci (tmul (tinv mu) zeta))) d) (tapply nu (tapply zeta d))) as HX.
      { intros c' p' Hc' Hp'. rewrite !tapply_tscale, tapply_tmul, (tinv_inverse s mu nu _ Hnu c' p' Hc' Hp').
        transitivity (- (Ci * Ci) * tapply nu (tapply zeta d) c' p'); [ring|]. rewrite Ci_sq. ring. }
      rewrite (tapply_ext3 s xi _ _ HX c p Hc Hp), (tinv_inverse s mu nu _ Hnu c p Hc Hp).
      assert (tapply nu (tapply zeta d1) c p = / RtoC k0 * tapply nu (tapply zeta (curl g 3 d)) c p) as ->.
      { rewrite <- tapply_scal. apply (tapply_ext3 s); try assumption. intros c' p' Hc' Hp'. unfold d1. rewrite tapply_scal. reflexivity. }
      unfold T, medium_op. rewrite RtoC_mult. field. repeat split; auto. apply RtoC_neq. lra. }
    unfold N. rewrite (vnorm_ext 3 s _ _ E). fold N.
    assert (forall a b c e : vfield, (N (fun k p => a k p + (b k p + (c k p + e k p)))%C <= N a + N b + N c + N e)%R) as Htri.
    { intros a b c e. eapply Rle_trans; [apply vnorm_plus|]. fold N. pose proof (vnorm_plus 3 s b (fun k p => c k p + e k p)) as H1. pose proof (vnorm_plus 3 s c e) as H2. fold N in H1, H2. lra. }
    eapply Rle_trans; [apply Htri|]. clear E Htri.
    assert (Hib : (0 < / beta)%R) by (apply Rinv_0_lt_compat, Hb).
    assert (forall X : vfield, N (fun c p => / RtoC beta * X c p) = (/ beta * N X)%R) as Nb.
    { intros X. unfold N. rewrite vnorm_scal, Cmod_inv by exact Hb0. rewrite Cmod_R, Rabs_pos_eq by lra. reflexivity. }
    rewrite !Nb. assert (N (fun c p => - (1) * (/ RtoC k0 * curl g 3 H c p)) = N (fun c p => / RtoC k0 * curl g 3 H c p)) as ->.
    { unfold N. rewrite vnorm_scal, Cmod_opp, Cmod_1. ring. }
    pose proof (mc_curl d) as C1. fold d1 in C1. pose proof (mc_curl G) as C2. pose proof (mc_curl H) as C3.
    pose proof (sigma_norm eps s (effective_epsilon epsilon xi zeta mu) ar beta d He He1 Hb) as S1. fold A N tiny in S1.
    pose proof (sigma_norm eps s (tscale Ci (tmul (tinv mu) zeta)) 0 1 d1 He He1 Rlt_0_1) as S2. fold B N tiny in S2.
    pose proof (sigma_norm eps s (tscale (- Ci) (tmul xi (tinv mu))) 0 1 d He He1 Rlt_0_1) as S3. fold G N tiny in S3.
    pose proof (sigma_norm eps s (tinv mu) 1 beta d1 He He1 Hb) as S4. fold H N tiny in S4.
    rewrite <- singular_EE in S2, S3. rewrite <- sigma_HH_EE in S4.
    unfold singular_value_sum. rewrite (Rabs_pos_eq beta) by lra.
    pose proof (vnorm_nonneg 3 s d) as N0. fold N in N0. pose proof (sqrt_pos (2 * sqrt eps)) as T0. fold tiny in T0.
    pose proof (sqrt_pos (largest_eigenvalue eps s (tmul (tadjoint (tscale Ci (tmul (tinv mu) zeta))) (tscale Ci (tmul (tinv mu) zeta))))) as P2.
    fold (largest_singularvalue eps s (tscale Ci (tmul (tinv mu) zeta))) in P2.
    assert (0 <= sigma_HH eps s mu beta)%R as P4 by (rewrite sigma_HH_EE; apply sigma_EE_nonneg, Hb).
    set (x1 := sigma_EE eps s (effective_epsilon epsilon xi zeta mu) ar beta) in *.
    set (x2 := largest_singularvalue eps s (tscale Ci (tmul (tinv mu) zeta))) in *.
    set (x3 := largest_singularvalue eps s (tscale (- Ci) (tmul xi (tinv mu)))) in *.
    set (x4 := sigma_HH eps s mu beta) in *.
    unfold Rdiv in S2, S3. rewrite Rinv_1, Rmult_1_r in S2, S3.
    assert (N B <= (x2 + tiny) * (D * N d))%R as B1 by (eapply Rle_trans; [exact S2|]; apply Rmult_le_compat_l; [lra|exact C1]).
    assert (N (fun c p => / RtoC k0 * curl g 3 G c p)%C <= D * ((x3 + tiny) * N d))%R as B2 by (eapply Rle_trans; [exact C2|]; apply Rmult_le_compat_l; assumption).
    assert (0 <= tiny / beta)%R as Tb by (apply Rmult_le_pos; [exact T0|lra]).
    assert (N (fun c p => / RtoC k0 * curl g 3 H c p)%C <= D * ((x4 + tiny / beta) * (D * N d)))%R as B3.
    { eapply Rle_trans; [exact C3|]. apply Rmult_le_compat_l; [exact HD0|]. eapply Rle_trans; [exact S4|]. apply Rmult_le_compat_l; [lra|exact C1]. }
    apply (Rmult_le_compat_l (/ beta)) in B1; [|lra]. apply (Rmult_le_compat_l (/ beta)) in B2; [|lra].
    eapply Rle_trans; [apply Rplus_le_compat; [apply Rplus_le_compat; [apply Rplus_le_compat; [exact S1|exact B1]|exact B2]|exact B3]|].
    right. unfold Rdiv. ring.
  Qed.

  (** ** Linearity *)
  Lemma mc_minus F G : vagree 3 s (T (fun c p => F c p - G c p)) (fun c p => T F c p - T G c p).
  Proof.
    pose proof mc_ndim as Hn.
    assert (forall t X Y Z, vagree 3 s X (fun c p => Y c p - Z c p) -> vagree 3 s (tapply t X) (fun c p => tapply t Y c p - tapply t Z c p)) as Ht.
    { intros t X Y Z H c p Hc Hp. rewrite (tapply_ext3 s t _ _ H c p Hc Hp). apply tapply_minus. }
    assert (forall X Y Z, vagree 3 s X (fun c p => Y c p - Z c p) -> vagree 3 s (curl g 3 X) (fun c p => curl g 3 Y c p - curl g 3 Z c p)) as Hcu.
    { intros X Y Z H c p Hc Hp. rewrite (curl_vagree g _ (fun c p => Y c p + - (1) * Z c p) Hn) by (try assumption; intros c' p' Hc' Hp'; rewrite (H c' p' Hc' Hp'); ring).
      rewrite curl_plus, curl_scal by assumption. ring. }
    assert (vagree 3 s (fun c p => F c p - G c p) (fun c p => F c p - G c p)) as HF by (intros c p _ _; reflexivity).
    pose proof (Hcu _ _ _ HF) as HD. intros c p Hc Hp. unfold T, medium_op.
    rewrite (Ht epsilon _ _ _ HF c p Hc Hp), (Ht xi _ _ _ (Ht nu _ _ _ (Ht zeta _ _ _ HF)) c p Hc Hp).
    rewrite (Ht nu _ _ _ (Ht zeta _ _ _ HD) c p Hc Hp), (Hcu _ _ _ (Ht xi _ _ _ (Ht nu _ _ _ HF)) c p Hc Hp).
    rewrite (Hcu _ _ _ (Ht nu _ _ _ HD) c p Hc Hp), (Hcu _ _ _ HD c p Hc Hp). unfold Cdiv. ring.
  Qed.
  Lemma mc_vagree F G : vagree 3 s F G -> vagree 3 s (T F) (T G).
  Proof.
    pose proof mc_ndim as Hn. intros HF.
    pose proof (curl_vagree g _ _ Hn HF) as HD. pose proof (tapply_ext3 s) as Ht. intros c p Hc Hp. unfold T, medium_op.
    rewrite (Ht epsilon _ _ HF c p Hc Hp), (Ht xi _ _ (Ht nu _ _ (Ht zeta _ _ HF)) c p Hc Hp).
    rewrite (Ht nu _ _ (Ht zeta _ _ HD) c p Hc Hp), (curl_vagree g _ _ Hn (Ht xi _ _ (Ht nu _ _ HF)) c p Hc Hp).
    rewrite (curl_vagree g _ _ Hn (Ht nu _ _ HD) c p Hc Hp), (curl_vagree g _ _ Hn HD c p Hc Hp). reflexivity.
  Qed.

  (** ** Passivity *)
  Variables (kappa : C) (loss : R).
  Hypothesis Hcouple : forall G, vagree 3 s (coupling xi zeta nu G) (fun c p => kappa * G c p).
  Hypothesis Hloss : dissipates s epsilon xi zeta mu loss.

  Lemma dissipated E H : (loss * vnorm2 3 s E <=
    snd (vip 3 s E (fun c p => tapply epsilon E c p + tapply xi H c p)%C + vip 3 s H (fun c p => tapply zeta E c p + tapply mu H c p))%C)%R.
  Proof.
    rewrite !vip_points, <- sum_over_plus, vnorm2_points, <- rsum_over_scal.
    assert (forall f, snd (sum_over s f) = rsum_over s (fun p => snd (f p))) as Hsn.
    { clear. induction s as [|m s' IH]; intros f; [reflexivity|]. cbn [sum_over rsum_over].
      assert (forall k (h : nat -> C), snd (csum k h) = rsum k (fun i => snd (h i))) as Hc by (induction k as [|k IHk]; intros h; [reflexivity|]; cbn; rewrite IHk; reflexivity).
      rewrite Hc. apply rsum_ext. intros i _. apply IH. }
    rewrite Hsn. apply rsum_over_le. intros p Hp. eapply Rle_trans; [apply (Hloss p (fun i => E i p) (fun i => H i p) Hp)|]. apply Req_le. f_equal.
    rewrite <- csum_plus. apply csum_ext. intros i _.
    destruct epsilon, xi, zeta, mu; reflexivity.
  Qed.
  Lemma mc_absorbs u : (loss / beta * vnorm2 3 s u <= snd (vip 3 s u (T u)))%R.
  Proof.
    pose proof mc_ndim as Hn. pose proof Hs as (Hg & _ & _).
    assert (RtoC k0 <> 0) as Hk0 by (apply RtoC_neq; lra). assert (RtoC beta <> 0) as Hb0 by (apply RtoC_neq; lra).
    set (B := (fun c p => - (Ci / RtoC k0) * curl g 3 u c p) : vfield).
    set (H := (tapply nu (fun c p => B c p + - (1) * tapply zeta u c p)) : vfield).
    set (Df := (fun c p => tapply epsilon u c p + tapply xi H c p) : vfield).
    assert (vagree 3 s (fun c p => tapply zeta u c p + tapply mu H c p) B) as HB.
    { intros c p Hc Hp. unfold H. rewrite (proj1 (Hnu (fun c p => B c p + - (1) * tapply zeta u c p)) c p Hc Hp). ring. }
    assert (vagree 3 s H (fun c p => - (Ci / RtoC k0) * tapply nu (curl g 3 u) c p + - (1) * tapply nu (tapply zeta u) c p)) as HH.
    { intros c p _ _. unfold H. rewrite tapply_plus3, tapply_scal. unfold B. rewrite tapply_scal. reflexivity. }
    assert (couples g k0 xi zeta nu (fun c p => RtoC (k0 * k0) * u c p)) as Hco by (apply (uniform_coupling g k0 xi zeta nu kappa); assumption).
    (* T u = curl curl u / k0^2 - (i curl H / k0 - D) / beta *)
    assert (vagree 3 s (T u) (fun c p => / RtoC (k0 * k0) * curl g 3 (curl g 3 u) c p + / RtoC beta * (Df c p - Ci / RtoC k0 * curl g 3 H c p))) as HT.
    { intros c p Hc Hp.
      assert (curl g 3 (tapply xi (tapply nu u)) c p - tapply nu (tapply zeta (curl g 3 u)) c p
        = tapply xi (tapply nu (curl g 3 u)) c p - curl g 3 (tapply nu (tapply zeta u)) c p) as HC.
      { assert (curl g 3 (coupling xi zeta nu u) c p = coupling xi zeta nu (curl g 3 u) c p) as H1.
        { rewrite (Hcouple _ c p Hc Hp), <- curl_scal by assumption. apply curl_vagree; try assumption. apply Hcouple. }
        unfold coupling in H1. rewrite (curl_plus g _ _ Hn c p Hc Hp) in H1.
        transitivity (curl g 3 (tapply xi (tapply nu u)) c p + curl g 3 (tapply nu (tapply zeta u)) c p
          - curl g 3 (tapply nu (tapply zeta u)) c p - tapply nu (tapply zeta (curl g 3 u)) c p); [ring|]. rewrite H1. ring. }
      unfold Df. rewrite (curl_vagree g _ _ Hn HH c p Hc Hp), curl_plus, !curl_scal by assumption.
      rewrite (tapply_ext3 s xi _ _ HH c p Hc Hp), tapply_plus3, !tapply_scal.
      transitivity ((tapply epsilon u c p - tapply xi (tapply nu (tapply zeta u)) c p
        - Ci / RtoC k0 * (curl g 3 (tapply xi (tapply nu u)) c p - tapply nu (tapply zeta (curl g 3 u)) c p)
        - curl g 3 (tapply nu (curl g 3 u)) c p / RtoC (k0 * k0)) / RtoC beta + curl g 3 (curl g 3 u) c p / RtoC (k0 * k0)).
      - unfold T, medium_op. unfold Cdiv. ring.
      - rewrite HC. rewrite RtoC_mult.
        transitivity (/ (RtoC k0 * RtoC k0) * curl g 3 (curl g 3 u) c p + / RtoC beta * (tapply epsilon u c p - tapply xi (tapply nu (tapply zeta u)) c p
          - Ci / RtoC k0 * tapply xi (tapply nu (curl g 3 u)) c p + Ci / RtoC k0 * curl g 3 (tapply nu (tapply zeta u)) c p
          + (Ci * Ci) * curl g 3 (tapply nu (curl g 3 u)) c p / (RtoC k0 * RtoC k0))).
        + rewrite Ci_sq. field. auto.
        + field. auto. }
    rewrite (vagree_vip 3 s u _ u _ (fun c p _ _ => eq_refl) HT).
    rewrite vip_plus_r, !vip_scal_r, vip_minus_r, vip_scal_r. unfold s. rewrite (curl_self_adjoint g u (curl g 3 u) Hg Hn), (curl_self_adjoint g u H Hg Hn). fold s. rewrite vnorm2_vip.
    assert (Ci / RtoC k0 * vip 3 s (curl g 3 u) H = Cconj (vip 3 s H B)) as HX.
    { rewrite vip_conj.
      rewrite (vagree_vip 3 s (curl g 3 u) H (fun c p => (Ci * RtoC k0) * B c p) H).
      - rewrite <- (vip_conj 3 s H (fun c p => (Ci * RtoC k0) * B c p)), vip_scal_r, Cconj_mult, Cconj_mult, Cconj_Ci, Cconj_R, vip_conj.
        transitivity (- (Ci * Ci) * vip 3 s B H); [field; assumption|]. rewrite Ci_sq. ring.
      - intros c p _ _. unfold B. transitivity (- (Ci * Ci) * curl g 3 u c p); [rewrite Ci_sq; ring|field; assumption].
      - intros c p _ _. reflexivity. }
    rewrite HX. pose proof (dissipated u H) as HL. fold Df in HL.
    rewrite (vagree_vip 3 s H _ H B (fun c p _ _ => eq_refl) HB) in HL.
    generalize dependent (vip 3 s u Df). generalize dependent (vip 3 s H B). intros [a1 a2] _ [b1 b2] HL. cbn in HL.
    rewrite <- !RtoC_inv by (nra || lra). cbn. unfold Rdiv. apply (Rmult_le_compat_l (/ beta)) in HL; [|left; apply Rinv_0_lt_compat, Hb]. lra.
  Qed.
End Magnetic.
