(** The field that the iteration computes is the solution of the wave equation, and depends continuously on the medium and the source. *)
From Coq Require Import Reals Lra Lia List Arith Bool.
From Coquelicot Require Import Coquelicot.
Require Import Verif.Base Verif.Cplx Verif.CSum Verif.Field Verif.Fourier_Model Verif.Fourier_Spec Verif.Fourier_Proofs.
Require Import Verif.Vec_Model Verif.Vec_Spec Verif.Vec_Proofs Verif.Solver_Model Verif.Solver_Spec Verif.Solver_Proofs Verif.Solver_Convergence.
Require Import Verif.Choice_Model Verif.Choice_Properties Verif.Symmetry_Spec Verif.Symmetry_Linear.
Import ListNotations.
Local Open Scope R_scope.
Local Open Scope C_scope.

Lemma curl_curl_comb a b v g F G c p : curl_curl_op v g (combination a b F G) c p = combination a b (curl_curl_op v g F) (curl_curl_op v g G) c p.
Proof.
  unfold curl_curl_op. destruct v.
  - rewrite !(curl_lin a b). reflexivity.
  - unfold laplacian. rewrite (convolve_lin a b). { unfold combination. ring. } intros F' G'. ext2. unfold combination. ring.
Qed.
Lemma curl_curl_vagree v g F G : (v = true -> (rndim g <= 3)%nat) -> vagree (if v then 3 else 1) (rshape g) F G -> vagree (if v then 3 else 1) (rshape g) (curl_curl_op v g F) (curl_curl_op v g G).
Proof.
  intros Hn H. unfold curl_curl_op. destruct v.
  - apply curl_vagree; [auto|]. apply curl_vagree; auto.
  - intros c p Hc Hp. f_equal. unfold laplacian. apply (convolve_vagree (rshape g) 1); try assumption. intros F' G' k Hk E d Hd. rewrite E by assumption. reflexivity.
Qed.
Lemma fits_apply v t F G s : fits v t -> vagree (if v then 3 else 1) s F G -> vagree (if v then 3 else 1) s (tapply t F) (tapply t G).
Proof.
  intros Hf. apply tapply_vagree. destruct v; [left; reflexivity|]. destruct t; [right; exact I|discriminate Hf].
Qed.
Lemma wave_vagree v g k0 beta epsilon E E' S S' : (v = true -> (rndim g <= 3)%nat) -> fits v epsilon -> vagree (if v then 3 else 1) (rshape g) E E' ->
  vagree (if v then 3 else 1) (rshape g) S S' -> wave_equation v g k0 beta epsilon E S -> wave_equation v g k0 beta epsilon E' S'.
Proof.
  intros Hn Hf HE HS H c p Hc Hp. rewrite <- (HS c p Hc Hp), <- (H c p Hc Hp), (curl_curl_vagree v g E E' Hn HE c p Hc Hp), (fits_apply v epsilon E E' (rshape g) Hf HE c p Hc Hp). reflexivity.
Qed.
Lemma wave_combination v g k0 beta epsilon a b E1 E2 S1 S2 : wave_equation v g k0 beta epsilon E1 S1 -> wave_equation v g k0 beta epsilon E2 S2 ->
  wave_equation v g k0 beta epsilon (combination a b E1 E2) (combination a b S1 S2).
Proof.
  intros H1 H2 c p Hc Hp. rewrite curl_curl_comb, (tapply_lin a b). unfold combination. rewrite <- (H1 c p Hc Hp), <- (H2 c p Hc Hp). ring.
Qed.

(** ** Limits *)
Lemma limits_agree n s k0 (u : nat -> vfield) E1 E2 :
  is_lim_seq (fun i => vnorm2 n s (fun c p => electric_field k0 (u i) c p - E1 c p)) 0%R -> is_lim_seq (fun i => vnorm2 n s (fun c p => electric_field k0 (u i) c p - E2 c p)) 0%R ->
  vagree n s E1 E2.
Proof.
  intros H1 H2. pose proof (cv_combination n s k0 u u E1 E2 1 (- (1)) H1 H2) as H.
  assert (Hc : is_lim_seq (fun _ : nat => vnorm2 n s (fun c p => E1 c p - E2 c p)) 0%R).
  { eapply is_lim_seq_ext; [|exact H]. intros i. replace (vnorm2 n s (fun c p => E1 c p - E2 c p)) with (vnorm2 n s (fun c p => - (1) * (E1 c p - E2 c p))).
    - apply vagree_vnorm2. intros c p _ _. unfold electric_field, combination, Cdiv. ring.
    - rewrite vnorm2_scal, Cmod_opp, Cmod_1. ring. }
  assert (E : vnorm2 n s (fun c p => E1 c p - E2 c p) = 0%R).
  { apply (is_lim_seq_unique _ _) in Hc. rewrite Lim_seq_const in Hc. injection Hc. auto. }
  intros c p Hc' Hp. pose proof (vnorm2_zero n s _ E c p Hc' Hp) as Z. cbv beta in Z. transitivity (E2 c p + (E1 c p - E2 c p)); [ring|]. rewrite Z. ring.
Qed.

Section Computes.
  Variables (eps : R) (g : raster) (k0 : R) (v : bool) (epsilon : tensor) (m : R) (settled : R * R) (kappa : option R) (S : vfield) (loss : R).
  Hypothesis He : (0 < eps)%R.
  Hypothesis H1 : (2 * eps <= 1)%R.
  Hypothesis Hm : (0 < m)%R.
  Hypothesis Hq : (800 * sqrt eps * (m * m) < 1)%R.
  Hypothesis Hs : solvable v g k0.
  Hypothesis Hf : fits v epsilon.
  Hypothesis Hl : (0 < loss)%R.
  Let n := (if v then 3 else 1)%nat.
  Hypothesis Ha : absorbs n (rshape g) epsilon loss.
  Let o := construct eps g k0 v epsilon tzero tzero (tuniform (RtoC m)) settled kappa S.

  Lemma computes_wave E : computes n (rshape g) k0 o E <-> wave_equation v g k0 (/ m) epsilon E S.
  Proof.
    assert (L : forall F, exists E0, wave_equation v g k0 (/ m) epsilon E0 S /\ (forall E', wave_equation v g k0 (/ m) epsilon E' S -> vagree n (rshape g) E' E0) /\
      is_lim_seq (fun i => vnorm2 n (rshape g) (fun c p => electric_field k0 (Nat.iter i (next_field o) F) c p - E0 c p)) 0%R).
    { intros F. destruct (constructed_converges eps g k0 v epsilon m settled kappa S loss F He H1 Hm Hq Hs Hf Hl Ha) as (E0 & q & Hq0 & HE & HU & HC). exists E0. split; [exact HE|]. split; [exact HU|].
      apply (is_lim_seq_le_le (fun _ => 0%R) _ (fun i => q ^ i * vnorm2 n (rshape g) (fun c p => electric_field k0 F c p - E0 c p)%C)%R).
      - intros i. split; [apply vnorm2_nonneg|]. exact (HC i).
      - apply is_lim_seq_const.
      - replace (Finite 0) with (Finite (0 * vnorm2 n (rshape g) (fun c p => electric_field k0 F c p - E0 c p)%C)%R) by (f_equal; ring).
        apply is_lim_seq_mult'; [|apply is_lim_seq_const]. apply is_lim_seq_geom. rewrite Rabs_pos_eq; lra. }
    split.
    - intros H. destruct (L (fun _ _ => 0)) as (E0 & HE & _ & HC). pose proof (limits_agree n (rshape g) k0 _ E0 E HC (H (fun _ _ => 0))) as A.
      apply (wave_vagree v g k0 (/ m) epsilon E0 E S S); try assumption; [exact (proj2 (proj2 Hs))|]. intros c p _ _. reflexivity.
    - intros HE F. destruct (L F) as (E0 & _ & HU & HC). pose proof (HU E HE) as A. eapply is_lim_seq_ext; [|exact HC]. intros i. apply vagree_vnorm2. intros c p Hc Hp. rewrite (A c p Hc Hp). reflexivity.
  Qed.
  Lemma computes_exists : exists E, computes n (rshape g) k0 o E.
  Proof.
    destruct (constructed_converges eps g k0 v epsilon m settled kappa S loss (fun _ _ => 0) He H1 Hm Hq Hs Hf Hl Ha) as (E0 & _ & _ & HE & _ & _). exists E0. apply computes_wave. exact HE.
  Qed.
End Computes.

(** ** Stability *)
Lemma wave_power v g k0 beta epsilon E S : solvable v g k0 -> let n := (if v then 3 else 1)%nat in wave_equation v g k0 beta epsilon E S ->
  (k0 * k0 * snd (vip n (rshape g) E (tapply epsilon E)) = - snd (vip n (rshape g) E S))%R.
Proof.
  intros Hs n H. rewrite <- (vagree_vip n (rshape g) E (fun c p => RtoC beta * curl_curl_op v g E c p - RtoC (k0 * k0) * tapply epsilon E c p) E S); [|intros c p _ _; reflexivity|exact H].
  rewrite vip_minus_r, !vip_scal_r. pose proof (curl_curl_form v g E n (proj1 Hs) (proj2 (proj2 Hs)) eq_refl) as Z.
  set (x := vip n (rshape g) E (curl_curl_op v g E)) in *. set (y := vip n (rshape g) E (tapply epsilon E)) in *. clearbody x y. destruct x as [a b], y as [c d]. cbn in *. rewrite Z. ring.
Qed.
Lemma absorbed_all n s epsilon loss E : absorbs n s epsilon loss -> (loss * vnorm2 n s E <= snd (vip n s E (tapply epsilon E)))%R.
Proof.
  intros Ha. rewrite vnorm2_points, vip_points, <- rsum_over_scal.
  assert (forall f, snd (sum_over s f) = rsum_over s (fun p => snd (f p))) as Hs.
  { clear. induction s as [|m s' IH]; intros f; [reflexivity|]. cbn [sum_over rsum_over].
    assert (forall k (h : nat -> C), snd (csum k h) = rsum k (fun i => snd (h i))) as Hc by (induction k as [|k IHk]; intros h; [reflexivity|]; cbn; rewrite IHk; reflexivity).
    rewrite Hc. apply rsum_ext. intros i _. apply IH. }
  rewrite Hs. apply rsum_over_le. intros p Hp. eapply Rle_trans; [apply (Ha p (fun i => E i p) Hp)|]. apply Req_le. f_equal.
  apply csum_ext. intros i _. f_equal. destruct epsilon; reflexivity.
Qed.
Lemma wave_bounded v g k0 beta epsilon loss E S : solvable v g k0 -> let n := (if v then 3 else 1)%nat in absorbs n (rshape g) epsilon loss -> (0 <= loss)%R ->
  wave_equation v g k0 beta epsilon E S -> ((k0 * k0 * loss) * (k0 * k0 * loss) * vnorm2 n (rshape g) E <= vnorm2 n (rshape g) S)%R.
Proof.
  intros Hs n Ha Hl H. pose proof (wave_power v g k0 beta epsilon E S Hs H) as P. fold n in P. pose proof (absorbed_all n (rshape g) epsilon loss E Ha) as A.
  pose proof (cauchy_schwarz (n :: rshape g) (flat E) (flat S)) as Q. rewrite <- vip_flat, <- !vnorm2_flat in Q. pose proof (Cmod_Im_le (vip n (rshape g) E S)) as I.
  pose proof (vnorm2_nonneg n (rshape g) E) as NE. pose proof (vnorm2_nonneg n (rshape g) S) as NS. set (x := vip n (rshape g) E S) in *. set (e := vnorm2 n (rshape g) E) in *. set (t := vnorm2 n (rshape g) S) in *.
  assert (B : (k0 * k0 * loss * e <= Cmod x)%R). { eapply Rle_trans; [|exact I]. rewrite <- Rabs_Ropp, <- P. eapply Rle_trans; [|apply Rle_abs]. pose proof (Rle_0_sqr k0) as K. unfold Rsqr in K. rewrite Rmult_assoc. apply Rmult_le_compat_l; assumption. }
  destruct (Req_dec e 0) as [Z|Z]; [rewrite Z; lra|]. apply Rmult_le_reg_l with e; [lra|]. eapply Rle_trans; [|exact Q].
  pose proof (Rle_0_sqr k0) as K. unfold Rsqr in K. assert (0 <= k0 * k0 * loss * e)%R by (apply Rmult_le_pos; [apply Rmult_le_pos|]; assumption).
  replace (e * (k0 * k0 * loss * (k0 * k0 * loss) * e))%R with ((k0 * k0 * loss * e) * (k0 * k0 * loss * e))%R by ring. apply Rmult_le_compat; assumption.
Qed.
Lemma wave_perturbed v g k0 beta eps1 eps2 loss d E1 E2 S : solvable v g k0 -> let n := (if v then 3 else 1)%nat in absorbs n (rshape g) eps1 loss -> (0 <= loss)%R ->
  near n (rshape g) eps1 eps2 d -> wave_equation v g k0 beta eps1 E1 S -> wave_equation v g k0 beta eps2 E2 S ->
  (loss * loss * vnorm2 n (rshape g) (fun c p => E1 c p - E2 c p)%C <= d * d * vnorm2 n (rshape g) E2)%R.
Proof.
  intros Hs n Ha Hl Hd W1 W2. assert (Hk : k0 <> 0%R) by apply Hs.
  set (D := fun c p => tapply eps1 E2 c p - tapply eps2 E2 c p).
  assert (W : wave_equation v g k0 beta eps1 (combination 1 (- (1)) E1 E2) (fun c p => RtoC (k0 * k0) * D c p)).
  { intros c p Hc Hp. rewrite curl_curl_comb, (tapply_lin 1 (- (1))). specialize (W1 c p Hc Hp). specialize (W2 c p Hc Hp). cbv beta in W1, W2. unfold combination, D.
    transitivity ((RtoC beta * curl_curl_op v g E1 c p - RtoC (k0 * k0) * tapply eps1 E1 c p) - (RtoC beta * curl_curl_op v g E2 c p - RtoC (k0 * k0) * tapply eps2 E2 c p)
      + RtoC (k0 * k0) * (tapply eps1 E2 c p - tapply eps2 E2 c p)); [ring|]. rewrite W1, W2. ring. }
  pose proof (wave_bounded v g k0 beta eps1 loss _ _ Hs Ha Hl W) as B. cbv zeta in B. fold n in B. rewrite vnorm2_scal, Cmod_R in B.
  assert (Q : (vnorm2 n (rshape g) D <= d * d * vnorm2 n (rshape g) E2)%R).
  { rewrite !vnorm2_points, <- rsum_over_scal. apply rsum_over_le. intros p Hp. eapply Rle_trans; [|apply (Hd p (fun c => E2 c p) Hp)]. apply Req_le. apply rsum_ext. intros c _.
    unfold D. destruct eps1, eps2; reflexivity. }
  rewrite (vagree_vnorm2 n (rshape g) (fun c p => E1 c p - E2 c p) (combination 1 (- (1)) E1 E2)) by (intros c p _ _; unfold combination; ring).
  set (e := vnorm2 n (rshape g) (combination 1 (- (1)) E1 E2)) in *. set (t := vnorm2 n (rshape g) D) in *. assert (K : (0 < k0 * k0)%R) by (destruct (Rdichotomy _ _ Hk); nra). rewrite Rabs_pos_eq in B by lra.
  eapply Rle_trans; [|exact Q]. apply Rmult_le_reg_l with (k0 * k0 * (k0 * k0))%R; nra.
Qed.
