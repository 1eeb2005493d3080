(** What a Solution keeps of the permeability and of the magneto-electric coupling when epsilon is assigned. *)
From Coq Require Import Reals Lra Lia List Arith Bool FunctionalExtensionality.
Require Import Verif.Base Verif.Cplx Verif.CSum Verif.Field Verif.Fourier_Model Verif.Fourier_Spec Verif.Vec_Model Verif.Solver_Model Verif.Solver_Spec Verif.Solver_Proofs Verif.Solver_Convergence Verif.Solver_Choice.
Require Import Verif.Choice_Model Verif.Derived_Model Verif.Derived_Spec Verif.Derived_Tensor Verif.Run_Model Verif.Run_Spec Verif.Run_Magnetic Verif.Magnetic_Spec Verif.Modes_Model Verif.Whole_Proofs Verif.Whole_Magnetic Verif.Form_Spec Verif.Form_Proofs.
Import ListNotations.
Local Open Scope R_scope.
Local Open Scope C_scope.

Lemma scalar_ext (f f' : sfield) : (forall p, f p = f' p) -> TScalar f = TScalar f'.
Proof. intros H. f_equal. apply functional_extensionality. exact H. Qed.
Lemma matrix_ext (m m' : nat -> nat -> sfield) : (forall i j p, m i j p = m' i j p) -> TMatrix m = TMatrix m'.
Proof. intros H. f_equal. apply functional_extensionality; intros i. apply functional_extensionality; intros j. apply functional_extensionality; intros p. apply H. Qed.

Definition keep_mu (m : tensor) : tensor := tinv (tinv m).
Definition keep_xi (x m : tensor) : tensor := tmul (tmul x (tinv m)) (keep_mu m).
Definition keep_zeta (z m : tensor) : tensor := tmul (keep_mu m) (tmul (tinv m) z).

Section Stored.
  Variables (gk : raster) (alpha : C) (beta : R) (e x z m : tensor) (S : vfield).
  Hypothesis Ha : snd alpha <> 0%R.
  Hypothesis Hb : beta <> 0%R.
  Let o := prepare gk true true alpha beta e x z m S.
  Lemma stored_mu_keeps : stored_mu o = keep_mu m.
  Proof.
    unfold o. rewrite prepare_precondition by assumption. unfold stored_mu, keep_mu. cbn [o_magnetic precondition o_chiHH o_alpha o_beta]. cbv zeta iota. f_equal.
    destruct (tinv m) as [f|n]; cbn [tscale tsub]; [apply scalar_ext; intros p|apply matrix_ext; intros i j p]; field; nz.
  Qed.
  Lemma stored_xi_keeps : stored_xi o = keep_xi x m.
  Proof.
    unfold stored_xi. rewrite stored_mu_keeps. unfold o. rewrite prepare_precondition by assumption. unfold keep_xi. cbn [o_magnetic precondition o_chiEH o_alpha o_beta]. cbv zeta iota.
    generalize (keep_mu m). intros k. destruct (tmul x (tinv m)) as [f|n], k as [f'|n']; cbn [tscale tmul]; try (apply scalar_ext; intros p); try (apply matrix_ext; intros i j p).
    - transitivity (- (Ci * Ci) * (f p * f' p)); [field; nz|rewrite Ci_sq; ring].
    - transitivity (- (Ci * Ci) * (f p * n' i j p)); [field; nz|rewrite Ci_sq; ring].
    - transitivity (- (Ci * Ci) * (n i j p * f' p)); [field; nz|rewrite Ci_sq; ring].
    - rewrite <- csum_scal. apply csum_ext. intros l _. transitivity (- (Ci * Ci) * (n i l p * n' l j p)); [field; nz|rewrite Ci_sq; ring].
  Qed.
  Lemma stored_zeta_keeps : stored_zeta o = keep_zeta z m.
  Proof.
    unfold stored_zeta. rewrite stored_mu_keeps. unfold o. rewrite prepare_precondition by assumption. unfold keep_zeta. cbn [o_magnetic precondition o_chiHE o_alpha o_beta]. cbv zeta iota.
    generalize (keep_mu m). intros k. destruct (tmul (tinv m) z) as [f|n], k as [f'|n']; cbn [tscale tmul]; try (apply scalar_ext; intros p); try (apply matrix_ext; intros i j p).
    - transitivity (- (Ci * Ci) * (f' p * f p)); [field; nz|rewrite Ci_sq; ring].
    - transitivity (- (Ci * Ci) * (n' i j p * f p)); [field; nz|rewrite Ci_sq; ring].
    - transitivity (- (Ci * Ci) * (f' p * n i j p)); [field; nz|rewrite Ci_sq; ring].
    - rewrite <- csum_scal. apply csum_ext. intros l _. transitivity (- (Ci * Ci) * (n' i l p * n l j p)); [field; nz|rewrite Ci_sq; ring].
  Qed.
  Lemma keep_mu_acts nu : inverse_of (rshape gk) m nu -> acts_like (rshape gk) (keep_mu m) m.
  Proof. intros Hnu F. rewrite <- stored_mu_keeps. unfold o. rewrite prepare_precondition by assumption. apply (rm_stored_mu _ gk alpha beta e x z m nu S Ha Hb Hnu). Qed.
  Lemma keep_xi_acts nu : inverse_of (rshape gk) m nu -> acts_like (rshape gk) (keep_xi x m) x.
  Proof. intros Hnu F. rewrite <- stored_xi_keeps. unfold o. rewrite prepare_precondition by assumption. apply (rm_stored_xi _ gk alpha beta e x z m nu S Ha Hb Hnu). Qed.
  Lemma keep_zeta_acts nu : inverse_of (rshape gk) m nu -> acts_like (rshape gk) (keep_zeta z m) z.
  Proof. intros Hnu F. rewrite <- stored_zeta_keeps. unfold o. rewrite prepare_precondition by assumption. apply (rm_stored_zeta _ gk alpha beta e x z m nu S Ha Hb Hnu). Qed.
End Stored.

(** ** What is kept once is kept for ever *)
Lemma C_zero_dec (d : C) : d = 0 \/ d <> 0.
Proof.
  destruct d as [a b]. destruct (Req_EM_T a 0) as [->|n]; [destruct (Req_EM_T b 0) as [->|n]; [left; reflexivity|right; intros E; injection E as E; contradiction]|right; intros E; injection E as E; contradiction].
Qed.
Lemma Cinv_zero : / (RtoC 0) = 0.
Proof. apply injective_projections; cbn; unfold Rdiv; ring. Qed.
Lemma one_neq : (R1, R0) <> RtoC 0.
Proof. intros E. apply (f_equal fst) in E. cbn in E. lra. Qed.
Ltac regular H := repeat match goal with |- _ /\ _ => split end; try exact H; try exact one_neq.
Lemma inv3_mod a i j : inv3 a i j = inv3 a (i mod 3) (j mod 3).
Proof. unfold inv3. rewrite !Nat.add_mod_idemp_l by discriminate. reflexivity. Qed.
Lemma mod3 i : (i mod 3 = 0 \/ i mod 3 = 1 \/ i mod 3 = 2)%nat.
Proof. pose proof (Nat.mod_upper_bound i 3 ltac:(discriminate)). lia. Qed.
Lemma inv3_singular a i j : det3 a = 0 -> inv3 a i j = 0.
Proof. intros E. unfold inv3. rewrite E. unfold Cdiv. rewrite Cinv_zero. ring. Qed.
Lemma det3_inv3 a : det3 a <> 0 -> det3 (inv3 a) = / det3 a.
Proof. intros H. unfold det3 at 1. unfold inv3; cbn. unfold det3 in *. field. exact H. Qed.
Lemma Cinv_neq (d : C) : d <> 0 -> / d <> 0.
Proof. intros H E. assert (d * / d = 1) as X by (field; exact H). rewrite E in X. apply (f_equal fst) in X. cbn in X. lra. Qed.
Lemma inv3_inv3 a i j : det3 a <> 0 -> inv3 (inv3 a) i j = a (i mod 3) (j mod 3).
Proof.
  intros H. rewrite inv3_mod. pose proof (det3_inv3 a H) as D. unfold inv3 at 1. rewrite D.
  destruct (mod3 i) as [->|[->| ->]], (mod3 j) as [->|[->| ->]]; unfold inv3; cbn; unfold det3 in *; field; regular H.
Qed.
Lemma inv3_ext a b i j : (forall i j, (i < 3)%nat -> (j < 3)%nat -> a i j = b i j) -> inv3 a i j = inv3 b i j.
Proof.
  intros H. unfold inv3, det3. rewrite !H by (try apply Nat.mod_upper_bound; lia). reflexivity.
Qed.
Lemma inv3_thrice a i j : inv3 (inv3 (inv3 a)) i j = inv3 a i j.
Proof.
  destruct (C_zero_dec (det3 a)) as [Z|N].
  - rewrite (inv3_singular a i j Z). assert (det3 (inv3 a) = 0) as Z1 by (unfold det3; rewrite !(inv3_singular a) by exact Z; ring).
    apply inv3_singular. unfold det3. rewrite !(inv3_singular (inv3 a)) by exact Z1. ring.
  - apply inv3_ext. intros i' j' Hi Hj. rewrite (inv3_inv3 a i' j' N), !Nat.mod_small by assumption. reflexivity.
Qed.
Lemma inv3_right a i k : det3 a <> 0 -> csum 3 (fun j => inv3 a i j * inv3 (inv3 a) j k) = eye (i mod 3) (k mod 3).
Proof.
  intros H. rewrite (csum_ext 3 _ (fun j => inv3 a (i mod 3) j * a j (k mod 3)%nat)).
  - destruct (mod3 i) as [->|[->| ->]], (mod3 k) as [->|[->| ->]]; unfold inv3, eye; cbn; unfold det3 in *; field; regular H.
  - intros j Hj. rewrite (inv3_inv3 a j k H), (Nat.mod_small j 3 Hj). rewrite (inv3_mod a i j), (Nat.mod_small j 3 Hj). reflexivity.
Qed.
Lemma inv3_left a i k : det3 a <> 0 -> csum 3 (fun j => inv3 (inv3 a) i j * inv3 a j k) = eye (i mod 3) (k mod 3).
Proof.
  intros H. rewrite (csum_ext 3 _ (fun j => a (i mod 3)%nat j * inv3 a j (k mod 3))).
  - destruct (mod3 i) as [->|[->| ->]], (mod3 k) as [->|[->| ->]]; unfold inv3, eye; cbn; unfold det3 in *; field; regular H.
  - intros j Hj. rewrite (inv3_inv3 a i j H), (Nat.mod_small j 3 Hj). rewrite (inv3_mod a j k), (Nat.mod_small j 3 Hj). reflexivity.
Qed.
Lemma div_twice (d : C) : 1 / (1 / d) = d.
Proof.
  destruct (C_zero_dec d) as [->|H]; [|field; regular H]. unfold Cdiv. rewrite Cinv_zero, Cmult_0_r, Cinv_zero. ring.
Qed.
Lemma tinv_thrice t : tinv (tinv (tinv t)) = tinv t.
Proof.
  destruct t as [f|n]; cbn [tinv]; [apply scalar_ext; intros p; rewrite div_twice; reflexivity|apply matrix_ext; intros i j p; apply inv3_thrice].
Qed.
Lemma keep_mu_twice m : keep_mu (keep_mu m) = keep_mu m.
Proof. unfold keep_mu. rewrite tinv_thrice. reflexivity. Qed.

Lemma tmul_assoc a b c : tmul (tmul a b) c = tmul a (tmul b c).
Proof.
  destruct a as [f|n], b as [f'|n'], c as [f''|n'']; cbn [tmul]; first [apply scalar_ext; intros p|apply matrix_ext; intros i j p]; try ring; cbn; ring.
Qed.
Lemma inverses_once t : tmul (tinv (tinv t)) (tmul (tinv t) (tinv (tinv t))) = tinv (tinv t).
Proof.
  destruct t as [f|n]; cbn [tinv tmul]; [apply scalar_ext; intros p|apply matrix_ext; intros i j p].
  - rewrite div_twice. destruct (C_zero_dec (f p)) as [->|H]; [ring|field; exact H].
  - set (a := fun i j => n i j p). change (csum 3 (fun l => inv3 (inv3 a) i l * csum 3 (fun k => inv3 a l k * inv3 (inv3 a) k j)) = inv3 (inv3 a) i j).
    destruct (C_zero_dec (det3 a)) as [Z|N].
    + assert (det3 (inv3 a) = 0) as Z1 by (unfold det3; rewrite !(inv3_singular a) by exact Z; ring).
      rewrite (inv3_singular (inv3 a) i j Z1). rewrite (csum_ext 3 _ (fun _ => 0)); [cbn; ring|intros l _; rewrite (inv3_singular (inv3 a) i l Z1); ring].
    + rewrite (csum_ext 3 _ (fun l => inv3 (inv3 a) i l * eye (l mod 3) (j mod 3))) by (intros l _; rewrite (inv3_right a l j N); reflexivity).
      rewrite (inv3_mod (inv3 a) i j). rewrite (csum_ext 3 _ (fun l => inv3 (inv3 a) (i mod 3) l * eye (l mod 3) (j mod 3))) by (intros l Hl; rewrite (inv3_mod (inv3 a) i l), (Nat.mod_small l 3 Hl); reflexivity).
      generalize (inv3 (inv3 a) (i mod 3)). intros r. destruct (mod3 j) as [->|[->| ->]]; unfold eye; cbn; ring.
Qed.
Lemma keep_xi_twice x m : keep_xi (keep_xi x m) (keep_mu m) = keep_xi x m.
Proof.
  unfold keep_xi. rewrite keep_mu_twice. unfold keep_mu. rewrite tinv_thrice, !tmul_assoc, inverses_once. reflexivity.
Qed.
Lemma keep_zeta_twice z m : keep_zeta (keep_zeta z m) (keep_mu m) = keep_zeta z m.
Proof.
  unfold keep_zeta. rewrite keep_mu_twice. unfold keep_mu. rewrite tinv_thrice, <- !tmul_assoc.
  rewrite (tmul_assoc (tinv (tinv m)) (tinv m) (tinv (tinv m))), inverses_once. reflexivity.
Qed.

(** ** The material that is kept is magnetic if it was *)
Lemma tagree_acts s t t' : tagree s t t' -> acts_like s t t'.
Proof. intros A F c p Hc Hp. exact (tagree3 s t t' F c p A Hc Hp). Qed.
Lemma scalar_basis f i j p : tapply (TScalar f) (fun k _ => eye k j) i p = f p * eye i j.
Proof. reflexivity. Qed.
Lemma matrix_basis n i j p : (j < 3)%nat -> tapply (TMatrix n) (fun k _ => eye k j) i p = n i j p.
Proof. intros Hj. cbn [tapply]. destruct j as [|[|[|j]]]; [| | |lia]; unfold csum, eye; cbn; ring. Qed.
Lemma close_zero : close 0 0 = true.
Proof. unfold close. replace (RtoC 0 - RtoC 0) with (RtoC 0) by ring. unfold Rleb. rewrite Cmod_0. destruct (Rle_dec _ _); [reflexivity|exfalso; lra]. Qed.
Lemma elements_basis t p : forallb (fun x => close x 0) (elements t p) =
  forallb (fun i => forallb (fun j => close (tapply t (fun k _ => eye k j) i p) 0) [0; 1; 2]%nat) [0; 1; 2]%nat.
Proof.
  destruct t as [f|n].
  - cbn [forallb elements]. rewrite !scalar_basis. unfold eye. cbn [Nat.eqb]. replace (f p * RtoC 1) with (f p) by ring. replace (f p * RtoC 0) with (RtoC 0) by ring.
    rewrite close_zero. destruct (close (f p) 0); reflexivity.
  - cbn [forallb elements flat_map map app]. rewrite !matrix_basis by lia. rewrite !andb_true_r, !andb_assoc. reflexivity.
Qed.
Lemma allclose_acts s t t' : acts_like s t t' -> allclose s t 0 = allclose s t' 0.
Proof.
  intros A. unfold allclose, all_over. f_equal. apply any_over_ext. intros p Hp. f_equal. rewrite !elements_basis.
  cbn [forallb]. rewrite !(acts_point s t t' (fun k => eye k _) _ p A) by (lia || exact Hp). reflexivity.
Qed.
Lemma acts_tagree s t t' : (match t, t' with TScalar _, TScalar _ => True | TMatrix _, TMatrix _ => True | _, _ => False end) -> acts_like s t t' -> tagree s t t'.
Proof.
  intros K A. destruct t as [f|n], t' as [f'|n']; try contradiction K; cbn.
  - intros p Hp. pose proof (A (fun _ _ => 1) 0%nat p ltac:(lia) Hp) as Q. cbn in Q. replace (f p) with (f p * 1) by ring. rewrite Q. ring.
  - intros i j p Hi Hj Hp. rewrite <- (matrix_basis n i j p Hj), <- (matrix_basis n' i j p Hj). exact (acts_point s _ _ (fun k => eye k j) i p A Hi Hp).
Qed.
Section Kept.
  Variables (g : raster) (x z m nu : tensor).
  Hypothesis Hnu : inverse_of (rshape g) m nu.
  Let one_i : snd Ci <> 0%R. Proof. cbn. lra. Qed.
  Lemma kept_mu_acts : acts_like (rshape g) (keep_mu m) m.
  Proof. exact (keep_mu_acts g Ci 1 tzero x z m (fun _ _ => 0) one_i R1_neq_R0 nu Hnu). Qed.
  Lemma kept_xi_acts : acts_like (rshape g) (keep_xi x m) x.
  Proof. exact (keep_xi_acts g Ci 1 tzero x z m (fun _ _ => 0) one_i R1_neq_R0 nu Hnu). Qed.
  Lemma kept_zeta_acts : acts_like (rshape g) (keep_zeta z m) z.
  Proof. exact (keep_zeta_acts g Ci 1 tzero x z m (fun _ _ => 0) one_i R1_neq_R0 nu Hnu). Qed.
  Lemma kept_mu_tagree : tagree (rshape g) (keep_mu m) m.
  Proof. apply acts_tagree; [destruct m; exact I|exact kept_mu_acts]. Qed.
  Lemma kept_magnetic : List.Forall (fun n => 0 < n)%nat (rshape g) -> is_magnetic (rshape g) (keep_xi x m) (keep_zeta z m) (keep_mu m) = is_magnetic (rshape g) x z m.
  Proof.
    intros Hs. unfold is_magnetic. rewrite (allclose_acts _ _ _ kept_xi_acts), (allclose_acts _ _ _ kept_zeta_acts), (allclose_agree _ _ _ _ kept_mu_tagree).
    unfold first. rewrite (elements_agree _ _ _ _ kept_mu_tagree (zeros_inside _ Hs)). reflexivity.
  Qed.
End Kept.
Lemma coupling_acts s x z x' z' nu kappa : acts_like s x x' -> acts_like s z z' -> (forall G, vagree 3 s (coupling x z nu G) (fun c p => kappa * G c p)) ->
  forall G, vagree 3 s (coupling x' z' nu G) (fun c p => kappa * G c p).
Proof.
  intros Ax Az Hc G c p Hc' Hp. rewrite <- (Hc G c p Hc' Hp). unfold coupling. rewrite <- (Ax _ c p Hc' Hp), (tapply_ext3 _ nu _ _ (Az G) c p Hc' Hp). reflexivity.
Qed.
Lemma dissipates_acts s e x z m e' x' z' m' loss : acts_like s e e' -> acts_like s x x' -> acts_like s z z' -> acts_like s m m' -> dissipates s e x z m loss -> dissipates s e' x' z' m' loss.
Proof.
  intros Ae Ax Az Am Hd p E H Hp. cbv zeta. pose proof (Hd p E H Hp) as Q. cbv zeta in Q. eapply Rle_trans; [exact Q|]. apply Req_le. f_equal. apply csum_ext. intros i Hi.
  rewrite (acts_point _ _ _ E i p Ae Hi Hp), (acts_point _ _ _ H i p Ax Hi Hp), (acts_point _ _ _ E i p Az Hi Hp), (acts_point _ _ _ H i p Am Hi Hp). reflexivity.
Qed.
