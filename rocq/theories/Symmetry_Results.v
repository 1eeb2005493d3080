(** Symmetries of the computed solution. *)
From Coq Require Import Reals Lra Lia List Arith Bool FunctionalExtensionality.
From Coquelicot Require Import Coquelicot.
Require Import Verif.Base Verif.Cplx Verif.CSum Verif.Field Verif.Fourier_Model Verif.Fourier_Spec Verif.Fourier_Proofs.
Require Import Verif.Vec_Model Verif.Vec_Spec Verif.Vec_Proofs Verif.Solver_Model Verif.Solver_Spec Verif.Solver_Proofs Verif.Solver_Choice.
Require Import Verif.Choice_Model Verif.Symmetry_Spec Verif.Symmetry_Linear Verif.Symmetry_Limit Verif.Symmetry_Reciprocity.
Import ListNotations.
Local Open Scope R_scope.
Local Open Scope C_scope.

Lemma superposition_limit_proof eps g k0 (v : bool) epsilon xi zeta mu settled kappa a b S1 S2 E1 E2 :
  let n := (if v then 3 else 1)%nat in let o S := construct eps g k0 v epsilon xi zeta mu settled kappa S in
  computes n (rshape g) k0 (o S1) E1 -> computes n (rshape g) k0 (o S2) E2 -> computes n (rshape g) k0 (o (combination a b S1 S2)) (combination a b E1 E2).
Proof.
  intros n o H1 H2 F. set (Z := (fun _ _ => RtoC 0) : vfield).
  pose proof (fun a b S1 S2 F1 F2 i => superposition_proof eps g k0 v epsilon xi zeta mu settled kappa a b S1 S2 F1 F2 i) as SP. cbv zeta in SP.
  set (S12 := combination a b S1 S2).
  assert (Es : S12 = combination 1 1 S12 (combination 1 (- (1)) S1 S1)) by (ext2; unfold combination; ring).
  assert (Ef : F = combination 1 1 (combination a b Z Z) (combination 1 (- (1)) F Z)) by (unfold Z; ext2; unfold combination; ring).
  assert (A : is_lim_seq (fun i => vnorm2 n (rshape g) (fun c p => electric_field k0 (Nat.iter i (next_field (o S12)) (combination a b Z Z)) c p - combination a b E1 E2 c p)) 0%R).
  { eapply is_lim_seq_ext; [|exact (cv_combination n (rshape g) k0 _ _ E1 E2 a b (H1 Z) (H2 Z))]. intros i. cbv beta. unfold o, S12. rewrite <- (SP a b S1 S2 Z Z i). reflexivity. }
  assert (B : is_lim_seq (fun i => vnorm2 n (rshape g) (fun c p => electric_field k0 (Nat.iter i (next_field (o (combination 1 (- (1)) S1 S1))) (combination 1 (- (1)) F Z)) c p - combination 1 (- (1)) E1 E1 c p)) 0%R).
  { eapply is_lim_seq_ext; [|exact (cv_combination n (rshape g) k0 _ _ E1 E1 1 (- (1)) (H1 F) (H1 Z))]. intros i. cbv beta. unfold o. rewrite <- (SP 1 (- (1)) S1 S1 F Z i). reflexivity. }
  eapply is_lim_seq_ext; [|exact (cv_combination n (rshape g) k0 _ _ _ _ 1 1 A B)]. intros i. cbv beta. unfold o at 1 2. rewrite <- (SP 1 1 S12 _ _ _ i). rewrite <- Es, <- Ef.
  f_equal. ext2. unfold combination. fold (o S12). ring.
Qed.

Lemma lossy_wave eps g k0 v epsilon m loss settled kappa S E : lossy_problem eps g k0 v epsilon m loss ->
  computes (if v then 3 else 1) (rshape g) k0 (construct eps g k0 v epsilon tzero tzero (tuniform (RtoC m)) settled kappa S) E <-> wave_equation v g k0 (/ m) epsilon E S.
Proof. intros (He & H1 & Hm & Hq & Hs & Hf & Hl & Ha). exact (computes_wave eps g k0 v epsilon m settled kappa S loss He H1 Hm Hq Hs Hf Hl Ha E). Qed.
Lemma lossy_exists eps g k0 v epsilon m loss settled kappa S : lossy_problem eps g k0 v epsilon m loss ->
  exists E, computes (if v then 3 else 1) (rshape g) k0 (construct eps g k0 v epsilon tzero tzero (tuniform (RtoC m)) settled kappa S) E.
Proof. intros (He & H1 & Hm & Hq & Hs & Hf & Hl & Ha). exact (computes_exists eps g k0 v epsilon m settled kappa S loss He H1 Hm Hq Hs Hf Hl Ha). Qed.

Lemma reciprocity_proof eps g k0 v epsilon m loss settled kappa S1 S2 E1 E2 : lossy_problem eps g k0 v epsilon m loss -> symmetric (rshape g) epsilon ->
  (v = true -> odd_sizes (rshape g) \/ (rndim g <= 1)%nat) ->
  let n := (if v then 3 else 1)%nat in let o S := construct eps g k0 v epsilon tzero tzero (tuniform (RtoC m)) settled kappa S in
  computes n (rshape g) k0 (o S1) E1 -> computes n (rshape g) k0 (o S2) E2 -> product n (rshape g) E1 S2 = product n (rshape g) E2 S1.
Proof.
  intros L Hs Ho n o C1 C2. apply (lossy_wave eps g k0 v epsilon m loss settled kappa _ _ L) in C1, C2. destruct L as (_ & _ & _ & _ & Hv & Hf & _ & _).
  apply (wave_reciprocity v g k0 (/ m) epsilon E1 E2 S1 S2 Hv); try assumption. intros e. destruct (Ho e); [apply odd_even_products|apply one_even_products]; assumption.
Qed.
Lemma even_lossy eps k0 (e : C) : (0 < eps)%R -> (800 * sqrt eps < 1)%R -> k0 <> 0%R -> (0 < snd e)%R -> lossy_problem eps two_three k0 true (tuniform e) 1 (snd e).
Proof.
  intros He H8 Hk Hi. assert (Q : (0 < sqrt eps)%R) by (apply sqrt_lt_R0, He). pose proof (sqrt_sqrt eps (Rlt_le _ _ He)) as Q2.
  repeat split; try lra; try nra; try exact Hk; try (cbn; lia); try apply two_three_proper. apply absorbs_scalar. intros p _. lra.
Qed.
Lemma reciprocity_refuted_proof eps k0 (e : C) settled kappa : (0 < eps)%R -> (800 * sqrt eps < 1)%R -> k0 <> 0%R -> (0 < snd e)%R ->
  let g := {| rshape := [2; 3]%nat; rstep := [1; 1]%R |} in let o S := construct eps g k0 true (tuniform e) tzero tzero (tuniform 1) settled kappa S in
  exists S1 S2 E1 E2, computes 3 (rshape g) k0 (o S1) E1 /\ computes 3 (rshape g) k0 (o S2) E2 /\ product 3 (rshape g) E1 S2 <> product 3 (rshape g) E2 S1.
Proof.
  intros He H8 Hk Hi g o. destruct (even_grid_counterexample k0 e) as (E1 & E2 & S1 & S2 & W1 & W2 & N). exists S1, S2, E1, E2.
  pose proof (even_lossy eps k0 e He H8 Hk Hi) as L.
  repeat split; [| |exact N]; apply (lossy_wave eps two_three k0 true (tuniform e) 1 (snd e) settled kappa _ _ L); rewrite Rinv_1; assumption.
Qed.

Lemma bounded_proof eps g k0 v epsilon m loss settled kappa S E : lossy_problem eps g k0 v epsilon m loss -> let n := (if v then 3 else 1)%nat in
  computes n (rshape g) k0 (construct eps g k0 v epsilon tzero tzero (tuniform (RtoC m)) settled kappa S) E ->
  (sqrt (vnorm2 n (rshape g) E) <= sqrt (vnorm2 n (rshape g) S) / (k0 * k0 * loss))%R.
Proof.
  intros L n C1. apply (lossy_wave eps g k0 v epsilon m loss settled kappa S E L) in C1. destruct L as (_ & _ & _ & _ & Hs & _ & Hl & Ha).
  pose proof (wave_bounded v g k0 (/ m) epsilon loss E S Hs Ha (Rlt_le _ _ Hl) C1) as B. fold n in B.
  assert (K : (0 < k0 * k0 * loss)%R). { apply Rmult_lt_0_compat; [|exact Hl]. pose proof (proj1 (proj2 Hs)). destruct (Rtotal_order k0 0) as [?|[?|?]]; nra. }
  apply (Rmult_le_reg_l (k0 * k0 * loss) _ _ K). unfold Rdiv. rewrite (Rmult_comm (sqrt _) (/ _)), <- (Rmult_assoc _ (/ _)), Rinv_r, Rmult_1_l by lra.
  rewrite <- (sqrt_square (k0 * k0 * loss)) by lra. rewrite <- sqrt_mult_alt by nra. apply sqrt_le_1_alt. exact B.
Qed.
Lemma perturbed_proof eps g k0 v eps1 eps2 m loss loss2 d settled settled' kappa kappa' S E1 E2 : lossy_problem eps g k0 v eps1 m loss -> lossy_problem eps g k0 v eps2 m loss2 -> (0 <= d)%R ->
  let n := (if v then 3 else 1)%nat in near n (rshape g) eps1 eps2 d ->
  computes n (rshape g) k0 (construct eps g k0 v eps1 tzero tzero (tuniform (RtoC m)) settled kappa S) E1 ->
  computes n (rshape g) k0 (construct eps g k0 v eps2 tzero tzero (tuniform (RtoC m)) settled' kappa' S) E2 ->
  (sqrt (vnorm2 n (rshape g) (fun c p => E1 c p - E2 c p)%C) <= d / loss * sqrt (vnorm2 n (rshape g) E2))%R.
Proof.
  intros L1 L2 Hd n Hn C1 C2. apply (lossy_wave eps g k0 v eps1 m loss settled kappa S E1 L1) in C1. apply (lossy_wave eps g k0 v eps2 m loss2 settled' kappa' S E2 L2) in C2.
  destruct L1 as (_ & _ & _ & _ & Hs & _ & Hl & Ha).
  pose proof (wave_perturbed v g k0 (/ m) eps1 eps2 loss d E1 E2 S Hs Ha (Rlt_le _ _ Hl) Hn C1 C2) as B. fold n in B.
  apply (Rmult_le_reg_l loss _ _ Hl). unfold Rdiv. replace (loss * (d * / loss * sqrt (vnorm2 n (rshape g) E2)))%R with (d * sqrt (vnorm2 n (rshape g) E2))%R by (field; lra).
  rewrite <- (sqrt_square loss) at 1 by lra. rewrite <- (sqrt_square d) by lra. rewrite <- !sqrt_mult_alt by nra. apply sqrt_le_1_alt. exact B.
Qed.

(** A multiple of the identity matrix at every point. *)
Lemma isotropic_apply f F c p : (c < 3)%nat -> tapply (TMatrix (fun i j p => if Nat.eqb i j then f p else 0)) F c p = tapply (TScalar f) F c p.
Proof. intros Hc. destruct c as [|[|[|c]]]; [| | |lia]; cbn [tapply csum Nat.eqb]; ring. Qed.
Lemma isotropic_lossy eps g k0 f m loss : lossy_problem eps g k0 true (TScalar f) m loss -> lossy_problem eps g k0 true (TMatrix (fun i j p => if Nat.eqb i j then f p else 0)) m loss.
Proof.
  intros (He & H1 & Hm & Hq & Hs & Hf & Hl & Ha). repeat split; try assumption; try apply Hs. intros p u Hp. eapply Rle_trans; [exact (Ha p u Hp)|]. apply Req_le. f_equal. apply csum_ext. intros i Hi. f_equal. symmetry. apply isotropic_apply. exact Hi.
Qed.
Lemma isotropic_proof eps g k0 f m loss settled settled' kappa kappa' S E : lossy_problem eps g k0 true (TScalar f) m loss ->
  computes 3 (rshape g) k0 (construct eps g k0 true (TScalar f) tzero tzero (tuniform (RtoC m)) settled kappa S) E <->
  computes 3 (rshape g) k0 (construct eps g k0 true (TMatrix (fun i j p => if Nat.eqb i j then f p else 0)) tzero tzero (tuniform (RtoC m)) settled' kappa' S) E.
Proof.
  intros L. etransitivity; [exact (lossy_wave eps g k0 true (TScalar f) m loss settled kappa S E L)|]. etransitivity; [|symmetry; exact (lossy_wave eps g k0 true _ m loss settled' kappa' S E (isotropic_lossy eps g k0 f m loss L))].
  split; intros H c p Hc Hp; rewrite <- (H c p Hc Hp); f_equal; f_equal; [|symmetry]; apply isotropic_apply; exact Hc.
Qed.
