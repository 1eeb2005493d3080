(** Homogeneous media, and the wavelength. *)
From Coq Require Import Reals Lra Lia List Arith Bool FunctionalExtensionality.
Require Import Verif.Base Verif.Cplx Verif.CSum Verif.Field Verif.Fourier_Model Verif.Fourier_Spec Verif.Fourier_Proofs.
Require Import Verif.Vec_Model Verif.Vec_Spec Verif.Vec_Proofs Verif.Solver_Model Verif.Solver_Spec Verif.Solver_Proofs.
Require Import Verif.Choice_Model Verif.Symmetry_Spec Verif.Symmetry_Reciprocity Verif.Symmetry_Results Verif.Symmetry_Limit Verif.Cell_Spec.
Import ListNotations.
Local Open Scope R_scope.
Local Open Scope C_scope.

Lemma uniform_loss n g (e : C) loss : (0 < n)%nat -> proper g -> absorbs n (rshape g) (tuniform e) loss -> (loss <= snd e)%R.
Proof.
  intros Hn Hg A. assert (I : inside (rshape g) (map (fun _ => 0%nat) (rshape g))).
  { destruct Hg as (_ & F & _). clear A. induction F as [|x l Hx F IH]; cbn; constructor; assumption. }
  pose proof (A _ (fun i => if Nat.eqb i 0 then RtoC 1 else RtoC 0) I) as Q. cbn [tapply tuniform] in Q.
  rewrite (rsum_ext n _ (fun i => if Nat.eqb i 0 then 1%R else 0%R)) in Q by (intros i _; destruct (Nat.eqb i 0); rewrite ?Cmod_1, ?Cmod_0; ring).
  rewrite (csum_ext n _ (fun i => if Nat.eqb i 0 then e else 0)) in Q by (intros i _; destruct (Nat.eqb i 0); rewrite ?Cconj_R; ring).
  assert (E1 : rsum n (fun i => if Nat.eqb i 0 then 1%R else 0%R) = 1%R) by (clear -Hn; induction n as [|n IH]; [lia|]; cbn [rsum]; destruct n; [cbn; ring|rewrite IH by lia; cbn; ring]).
  assert (E2 : csum n (fun i => if Nat.eqb i 0 then e else 0) = e) by (clear -Hn; induction n as [|n IH]; [lia|]; cbn [csum]; destruct n; [cbn [csum Nat.eqb]; ring|rewrite IH by lia; cbn [Nat.eqb]; ring]).
  rewrite E1, E2 in Q. lra.
Qed.
Lemma wave_transformed v g k0 beta epsilon E S c k : (v = true -> (rndim g <= 3)%nat) -> wave_equation v g k0 beta epsilon E S -> (c < if v then 3 else 1)%nat -> inside (rshape g) k ->
  RtoC beta * ft (rshape g) (curl_curl_op v g E c) k - RtoC (k0 * k0) * ft (rshape g) (tapply epsilon E c) k = ft (rshape g) (S c) k.
Proof.
  intros Hn W Hc Hk. rewrite <- (ft_ext (rshape g) _ _ k (fun p Hp => W c p Hc Hp)). rewrite ft_minus, !ft_scal. reflexivity.
Qed.
Lemma curl_curl_transformed v g E c k : (v = true -> (rndim g <= 3)%nat) -> (c < if v then 3 else 1)%nat -> inside (rshape g) k ->
  ft (rshape g) (curl_curl_op v g E c) k = if v then csum 3 (fun j => RtoC (wavevector g k j * wavevector g k j)) * ft (rshape g) (E c) k - csum 3 (fun j => RtoC (wavevector g k c * wavevector g k j) * ft (rshape g) (E j) k)
    else RtoC (k2 g k) * ft (rshape g) (E c) k.
Proof.
  intros Hn Hc Hk. unfold curl_curl_op. destruct v.
  - specialize (Hn eq_refl). unfold curl. rewrite (ft_ext (rshape g) _ (convolve (rshape g) (fun F => curl_ft g 3 3 (curl_ft g 3 3 F)) E c) k) by (intros p Hp; exact (convolve_convolve (rshape g) 3 (curl_ft g 3 3) (curl_ft g 3 3) _ c p (curl_pointwise g Hn) Hc)).
    unfold convolve, vift. rewrite (ft_ift (rshape g) _ k Hk). rewrite curl_curl_products by assumption. reflexivity.
  - transitivity (- ft (rshape g) (laplacian g E c) k).
    + transitivity (ft (rshape g) (fun p => - (1) * laplacian g E c p) k); [apply ft_ext; intros p _; ring|]. rewrite ft_scal. ring.
    + unfold laplacian, convolve, vift. rewrite (ft_ift (rshape g) _ k Hk). unfold vft. rewrite RtoC_opp. ring.
Qed.

(** The amplitude of each wave. *)
Lemma homogeneous_vector_proof eps g k0 (e : C) m loss settled kappa S E : lossy_problem eps g k0 true (tuniform e) m loss ->
  computes 3 (rshape g) k0 (construct eps g k0 true (tuniform e) tzero tzero (tuniform (RtoC m)) settled kappa S) E ->
  forall c q, (c < 3)%nat -> inside (rshape g) q -> let K i := RtoC (wavevector g q i) in let k2 := RtoC (k0 * k0 * m) * e in
  let F c := ft (rshape g) (S c) q in
  ft (rshape g) (E c) q = RtoC m * (F c - K c * dot3 K F / k2) / (dot3 K K - k2).
Proof.
  intros L H c q Hc Hq K kk F. apply (lossy_wave eps g k0 true (tuniform e) m loss settled kappa S E L) in H. destruct L as (_ & _ & Hm & _ & (Hg & Hk0 & Hn) & _ & Hl & Ha).
  pose proof (uniform_loss 3 g e loss ltac:(lia) Hg Ha) as He.
  assert (W : forall i, (i < 3)%nat -> RtoC (/ m) * (dot3 K K * ft (rshape g) (E i) q - K i * dot3 K (fun j => ft (rshape g) (E j) q)) - RtoC (k0 * k0) * e * ft (rshape g) (E i) q = F i).
  { intros i Hi. unfold F. rewrite <- (wave_transformed true g k0 (/ m) (tuniform e) E S i q Hn H Hi Hq), (curl_curl_transformed true g E i q Hn Hi Hq). unfold tuniform. cbn [tapply]. rewrite ft_scal. cbn [csum]. unfold dot3, K. rewrite !RtoC_mult. ring. }
  assert (KP : (0 < k0 * k0)%R) by (destruct (Rdichotomy _ _ Hk0); nra).
  assert (Z1 : kk <> 0). { intros Z. apply (f_equal snd) in Z. unfold kk in Z. destruct e as [e1 e2]. cbn in Z, He. assert (P : (0 < k0 * k0 * m * e2)%R) by (apply Rmult_lt_0_compat; [apply Rmult_lt_0_compat; [exact KP|exact Hm]|lra]). nra. }
  assert (Z2 : dot3 K K - kk <> 0).
  { intros Z. apply (f_equal snd) in Z. unfold kk, dot3, K in Z. destruct e as [e1 e2]. cbn in Z, He. assert (P : (0 < k0 * k0 * m * e2)%R) by (apply Rmult_lt_0_compat; [apply Rmult_lt_0_compat; [exact KP|exact Hm]|lra]). nra. }
  assert (Zm : RtoC m <> 0) by (apply RtoC_neq; lra).
  set (X := fun j => ft (rshape g) (E j) q) in *. change (ft (rshape g) (E c) q) with (X c). assert (W' : forall i, (i < 3)%nat -> (dot3 K K - kk) * X i - K i * dot3 K X = RtoC m * F i).
  { intros i Hi. rewrite <- (W i Hi). unfold kk. rewrite RtoC_inv by lra. rewrite (RtoC_mult (k0 * k0) m). change (ft (rshape g) (E i) q) with (X i). field. exact Zm. }
  assert (D : - kk * dot3 K X = RtoC m * dot3 K F).
  { unfold dot3 at 2. transitivity (K 0%nat * (RtoC m * F 0%nat) + K 1%nat * (RtoC m * F 1%nat) + K 2%nat * (RtoC m * F 2%nat)); [|ring]. rewrite <- !W' by lia. unfold dot3. ring. }
  assert (D2 : dot3 K X = - (RtoC m * dot3 K F / kk)). { transitivity (- (- kk * dot3 K X / kk)); [field; exact Z1|]. rewrite D. reflexivity. }
  specialize (W' c Hc). rewrite D2 in W'. transitivity (((dot3 K K - kk) * X c - K c * - (RtoC m * dot3 K F / kk) + K c * - (RtoC m * dot3 K F / kk)) / (dot3 K K - kk)); [field; split; assumption|].
  rewrite W'. field. split; assumption.
Qed.
Lemma homogeneous_scalar_proof eps g k0 (e : C) m loss settled kappa S E : lossy_problem eps g k0 false (tuniform e) m loss ->
  computes 1 (rshape g) k0 (construct eps g k0 false (tuniform e) tzero tzero (tuniform (RtoC m)) settled kappa S) E ->
  forall q, inside (rshape g) q ->
  ft (rshape g) (E 0%nat) q = RtoC m * ft (rshape g) (S 0%nat) q / (RtoC (rsum (rndim g) (fun i => wavevector g q i * wavevector g q i)%R) - RtoC (k0 * k0 * m) * e).
Proof.
  intros L H q Hq. apply (lossy_wave eps g k0 false (tuniform e) m loss settled kappa S E L) in H. destruct L as (_ & _ & Hm & _ & (Hg & Hk0 & Hn) & _ & Hl & Ha).
  pose proof (uniform_loss 1 g e loss ltac:(lia) Hg Ha) as He.
  rewrite <- (wave_transformed false g k0 (/ m) (tuniform e) E S 0 q Hn H Nat.lt_0_1 Hq), (curl_curl_transformed false g E 0 q Hn Nat.lt_0_1 Hq). unfold tuniform. cbn [tapply]. rewrite ft_scal.
  rewrite (rsum_ext (rndim g) _ (fun i => kvec g i q * kvec g i q)%R) by (intros i Hi; unfold wavevector; destruct (Nat.ltb_spec i (rndim g)); [reflexivity|lia]). fold (k2 g q). rewrite RtoC_inv by lra. rewrite (RtoC_mult (k0 * k0) m).
  assert (KP : (0 < k0 * k0)%R) by (destruct (Rdichotomy _ _ Hk0); nra).
  field. split; [apply RtoC_neq; lra|]. intros Z. apply (f_equal snd) in Z. destruct e as [e1 e2]. cbn in Z, He. assert (P : (0 < k0 * k0 * m * e2)%R) by (apply Rmult_lt_0_compat; [apply Rmult_lt_0_compat; [exact KP|exact Hm]|lra]). nra.
Qed.

(** ** The wavelength *)
Lemma wave_length v g k0 beta epsilon a E S : a <> 0%R -> wave_equation v g (k0 / a) beta (tscale (RtoC (a * a)) epsilon) E S <-> wave_equation v g k0 beta epsilon E S.
Proof.
  intros Ha. assert (Q : forall c p, RtoC (k0 / a * (k0 / a)) * tapply (tscale (RtoC (a * a)) epsilon) E c p = RtoC (k0 * k0) * tapply epsilon E c p).
  { intros c p. assert (T : tapply (tscale (RtoC (a * a)) epsilon) E c p = RtoC (a * a) * tapply epsilon E c p) by (destruct epsilon; cbn [tscale tapply]; [ring|rewrite <- csum_scal; apply csum_ext; intros; ring]).
    rewrite T, Cmult_assoc, <- RtoC_mult. f_equal. f_equal. field. exact Ha. }
  split; intros W c p Hc Hp; rewrite <- (W c p Hc Hp); rewrite Q; reflexivity.
Qed.
Lemma tscale_apply z t F c p : tapply (tscale z t) F c p = z * tapply t F c p.
Proof. destruct t; cbn [tscale tapply]; [ring|rewrite <- csum_scal; apply csum_ext; intros; ring]. Qed.
Lemma absorbs_scaled n s t loss b : (0 <= b)%R -> absorbs n s t loss -> absorbs n s (tscale (RtoC b) t) (b * loss)%R.
Proof.
  intros Hb A p u Hp. rewrite (csum_ext n _ (fun i => RtoC b * (Cconj (u i) * tapply t (fun j _ => u j) i p))) by (intros i _; rewrite tscale_apply; ring).
  rewrite csum_scal. pose proof (A p u Hp) as Q. destruct (csum n _) as [x y]. cbn in *. nra.
Qed.
Lemma tscale_fits v z t : fits v t -> fits v (tscale z t).
Proof. destruct t; exact (fun H => H). Qed.
Lemma lossy_longer eps g k0 v epsilon m loss a : (0 < a)%R -> lossy_problem eps g k0 v epsilon m loss -> lossy_problem eps g (k0 / a) v (tscale (RtoC (a * a)) epsilon) m (a * a * loss).
Proof.
  intros Ha (He & H1 & Hm & Hq & (Hs1 & Hs2 & Hs3) & Hf & Hl & Hab).
  refine (conj He (conj H1 (conj Hm (conj Hq (conj (conj Hs1 (conj _ Hs3)) (conj (tscale_fits _ _ _ Hf) (conj _ _))))))).
  - intros Z. apply Hs2. replace k0 with (k0 / a * a)%R by (field; lra). rewrite Z. ring.
  - apply Rmult_lt_0_compat; [nra|exact Hl].
  - apply absorbs_scaled; [nra|exact Hab].
Qed.
Lemma wavelength_proof eps g k0 v epsilon m loss settled settled' kappa kappa' a S E : (0 < a)%R -> lossy_problem eps g k0 v epsilon m loss -> let n := (if v then 3 else 1)%nat in
  computes n (rshape g) k0 (construct eps g k0 v epsilon tzero tzero (tuniform (RtoC m)) settled kappa S) E <->
  computes n (rshape g) (k0 / a) (construct eps g (k0 / a) v (tscale (RtoC (a * a)) epsilon) tzero tzero (tuniform (RtoC m)) settled' kappa' S) E.
Proof.
  intros Ha L n. etransitivity; [exact (lossy_wave eps g k0 v epsilon m loss settled kappa S E L)|]. etransitivity; [|symmetry; exact (lossy_wave eps g (k0 / a) v _ m _ settled' kappa' S E (lossy_longer eps g k0 v epsilon m loss a Ha L))].
  symmetry. apply wave_length. lra.
Qed.
Lemma permeability_proof eps g k0 v epsilon m loss settled settled' kappa kappa' S E : (800 * sqrt eps < 1)%R -> lossy_problem eps g k0 v epsilon m loss -> let n := (if v then 3 else 1)%nat in
  computes n (rshape g) k0 (construct eps g k0 v epsilon tzero tzero (tuniform (RtoC m)) settled kappa S) E <->
  computes n (rshape g) k0 (construct eps g k0 v (tscale (RtoC m) epsilon) tzero tzero (tuniform (RtoC 1)) settled' kappa' (fun c p => RtoC m * S c p)) E.
Proof.
  intros H8 L n. assert (L1 : lossy_problem eps g k0 v (tscale (RtoC m) epsilon) 1 (m * loss)).
  { destruct L as (He & H1 & Hm & Hq & Hs & Hf & Hl & Hab). refine (conj He (conj H1 (conj Rlt_0_1 (conj _ (conj Hs (conj (tscale_fits _ _ _ Hf) (conj _ _))))))); [lra|nra|apply absorbs_scaled; [lra|exact Hab]]. }
  etransitivity; [exact (lossy_wave eps g k0 v epsilon m loss settled kappa S E L)|]. etransitivity; [|symmetry; exact (lossy_wave eps g k0 v _ 1 _ settled' kappa' _ E L1)].
  assert (Hm : RtoC m <> 0) by (apply RtoC_neq; pose proof (proj1 (proj2 (proj2 L))); lra). assert (m <> 0)%R by (pose proof (proj1 (proj2 (proj2 L))); lra).
  rewrite Rinv_1. split; intros W c p Hc Hp.
  - rewrite tscale_apply, <- (W c p Hc Hp), RtoC_inv by assumption. field. exact Hm.
  - specialize (W c p Hc Hp). cbv beta in W. rewrite tscale_apply in W. transitivity (RtoC (/ m) * (RtoC m * S c p)); [|rewrite RtoC_inv by assumption; field; exact Hm]. rewrite <- W, RtoC_inv by assumption. field. exact Hm.
Qed.
