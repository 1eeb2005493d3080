(** Proofs about beams: wave vectors, histories, space and spectrum. *)
From Coq Require Import Reals List Arith Bool ZArith Lia Lra Psatz FunctionalExtensionality.
Require Import Verif.Base Verif.CSum Verif.Field Verif.Fourier_Model Verif.Fourier_Spec Verif.Fourier_Proofs Verif.Vec_Model Verif.Vec_Spec Verif.Vec_Proofs Verif.Modes_Model Verif.Modes_Proofs.
Require Import Verif.Beam_Model Verif.Beam_Spec Verif.Cplx.
Import ListNotations.
Local Open Scope R_scope.
Local Open Scope C_scope.

(** ** Numbers *)
Lemma cexp_plus x y : cexp (x + y) = cexp x * cexp y.
Proof. unfold cexp. cbn [fst snd Cplus]. rewrite exp_plus, cis_plus, RtoC_mult. ring. Qed.
Lemma cexp_0 : cexp 0 = 1.
Proof. unfold cexp, RtoC. cbn [fst snd]. rewrite exp_0, cis_0. apply Cmult_1_l. Qed.
Lemma cexp_I x : cexp (Ci * RtoC x) = cis x.
Proof. unfold cexp. replace (Ci * RtoC x) with ((0, x)%R : C) by (unfold Ci, RtoC, Cmult; cbn; f_equal; ring). cbn [fst snd]. rewrite exp_0. apply Cmult_1_l. Qed.
Lemma cexp_neq_0 z : cexp z <> 0.
Proof. intros H. assert (cexp z * cexp (- z) = 1) as E by (rewrite <- cexp_plus, Cplus_opp_r; apply cexp_0). rewrite H, Cmult_0_l in E. apply RtoC_inj in E. lra. Qed.
Lemma fst_csqrt x : fst (csqrt (RtoC x)) = sqrt (Rmax 0 x).
Proof.
  unfold csqrt. cbn [fst]. rewrite Cmod_R. unfold RtoC; cbn [fst]. f_equal. destruct (Rle_dec 0 x).
  - rewrite Rabs_pos_eq, Rmax_right by assumption. field.
  - rewrite Rabs_left, Rmax_left by lra. field.
Qed.
Lemma sqrt_div_sq x k : (0 < k)%R -> (0 <= x)%R -> sqrt (x / (k * k)) = (sqrt x / k)%R.
Proof. intros K X. rewrite sqrt_div by nra. rewrite sqrt_square by lra. reflexivity. Qed.
Lemma csum3 f : csum 3 f = f 0%nat + f 1%nat + f 2%nat.
Proof. cbn. ring. Qed.
Lemma rsum3 f : rsum 3 f = (f 0%nat + f 1%nat + f 2%nat)%R.
Proof. cbn. ring. Qed.
Lemma lt3 c : (c < 3)%nat -> c = 0%nat \/ c = 1%nat \/ c = 2%nat.
Proof. lia. Qed.
Lemma tiny_true x : tiny x = true <-> (x <= / 100000000)%R.
Proof. unfold tiny, Rleb. destruct (Rle_dec _ _); split; intros; try discriminate; try assumption; try reflexivity; contradiction. Qed.
Lemma tiny_false x : tiny x = false <-> (/ 100000000 < x)%R.
Proof. unfold tiny, Rleb. destruct (Rle_dec _ _); split; intros; try discriminate; try reflexivity; lra. Qed.
Lemma Rltb_true x y : (x < y)%R -> Rltb x y = true.
Proof. unfold Rltb. destruct (Rlt_dec x y); [reflexivity|contradiction]. Qed.
Lemma Rltb_false x y : (y <= x)%R -> Rltb x y = false.
Proof. unfold Rltb. destruct (Rlt_dec x y); [lra|reflexivity]. Qed.

(** ** Wave vectors, for a real wavenumber *)
Section Real.
  Variables (b : setup) (k : R).
  Hypotheses (K : (0 < k)%R) (BK : bk b = RtoC k) (G : section_grid (bgrid b) (baxis b)).
  Notation g := (bgrid b).
  Notation axis := (baxis b).
  Lemma kt2_nonneg q : (0 <= kt2 g axis q)%R.
  Proof. apply rsum_nonneg. intros i _. destruct (i =? axis)%nat; [lra|]. nra. Qed.
  Lemma axial_nonneg q : (0 <= axial g axis k q)%R.
  Proof. apply sqrt_pos. Qed.
  Lemma axial_sq q : (axial g axis k q * axial g axis k q = Rmax 0 (k * k - kt2 g axis q))%R.
  Proof. apply sqrt_sqrt, Rmax_l. Qed.
  Lemma k_proj_real c q : (c < 3)%nat -> k_proj b c q = RtoC (wave_vector g axis k c q / k).
  Proof.
    intros Hc. unfold k_proj, wave_vector. destruct (c =? axis)%nat eqn:E.
    - replace (1 - csum 3 (fun i => k_proj_t b i q * k_proj_t b i q)) with (RtoC ((k * k - kt2 g axis q) / (k * k))).
      + rewrite fst_csqrt. f_equal. unfold axial. rewrite <- sqrt_div_sq; [|exact K|apply Rmax_l]. f_equal.
        unfold Rmax. assert (0 < / (k * k))%R by (apply Rinv_0_lt_compat; nra).
        destruct (Rle_dec 0 (k * k - kt2 g axis q)), (Rle_dec 0 ((k * k - kt2 g axis q) / (k * k))); unfold Rdiv in *; try reflexivity; try nra.
      + replace ((k * k - kt2 g axis q) / (k * k))%R with (1 - kt2 g axis q / (k * k))%R by (field; lra). rewrite RtoC_minus. f_equal. f_equal.
        unfold kt2. rewrite rsum3, csum3. unfold k_proj_t. rewrite BK.
        assert (forall i, (if (i =? axis)%nat then RtoC 0 else RtoC (kvec g i q) / RtoC k) = RtoC ((if (i =? axis)%nat then 0 else kvec g i q / k)%R)) as H.
        { intros i. destruct (i =? axis)%nat; [reflexivity|]. unfold Cdiv. rewrite <- RtoC_inv, <- RtoC_mult by lra. reflexivity. }
        rewrite !H, <- !RtoC_mult, <- !RtoC_plus. f_equal. destruct (0 =? axis)%nat, (1 =? axis)%nat, (2 =? axis)%nat; field; lra.
    - unfold k_proj_t. rewrite E, BK. unfold Cdiv. rewrite <- RtoC_inv, <- RtoC_mult by lra. reflexivity.
  Qed.
  Lemma wave_vector_norm q : (rsum 3 (fun c => wave_vector g axis k c q * wave_vector g axis k c q) = Rmax (k * k) (kt2 g axis q))%R.
  Proof.
    destruct G as (_ & _ & _ & _ & A & _).
    transitivity (axial g axis k q * axial g axis k q + kt2 g axis q)%R.
    - unfold kt2. rewrite !rsum3. unfold wave_vector. destruct (lt3 axis A) as [->|[->| ->]]; cbn [Nat.eqb]; ring.
    - rewrite axial_sq. unfold Rmax. destruct (Rle_dec 0 _), (Rle_dec (k * k) _); lra.
  Qed.
  Lemma norm_pos q : (0 < Rmax (k * k) (kt2 g axis q))%R.
  Proof. apply Rlt_le_trans with (k * k)%R; [nra|apply Rmax_l]. Qed.
  Definition wnorm q : R := sqrt (Rmax (k * k) (kt2 g axis q)).
  Lemma wnorm_pos q : (0 < wnorm q)%R.
  Proof. apply sqrt_lt_R0, norm_pos. Qed.
  Lemma k_dir_real c q : (c < 3)%nat -> k_dir b c q = RtoC (wave_vector g axis k c q / wnorm q).
  Proof.
    intros Hc. unfold k_dir. replace (rsum 3 _) with (Rmax (k * k) (kt2 g axis q) / (k * k))%R.
    - rewrite sqrt_div_sq; [|exact K|apply Rlt_le, norm_pos]. fold (wnorm q). rewrite k_proj_real by exact Hc. unfold Cdiv. rewrite <- RtoC_inv, <- RtoC_mult.
      + f_equal. field. split; [apply Rgt_not_eq, wnorm_pos|lra].
      + apply Rgt_not_eq. apply Rdiv_lt_0_compat; [apply wnorm_pos|exact K].
    - rewrite <- wave_vector_norm. rewrite !rsum3. rewrite !k_proj_real by lia. rewrite !Cmod_R.
      assert (forall x, (Rabs x * Rabs x = x * x)%R) as A by (intros x; rewrite <- Rabs_mult; apply Rabs_pos_eq; nra). rewrite !A. field. lra.
  Qed.
  Lemma propagator_real d q : propagator b d q = cis (d * axial g axis k q).
  Proof.
    destruct G as (_ & _ & _ & _ & A & _). unfold propagator. rewrite k_dir_real by exact A. rewrite BK, <- Cmult_assoc, <- Cmult_assoc, <- !RtoC_mult, cexp_I. f_equal.
    unfold wave_vector. rewrite Nat.eqb_refl. unfold wnorm, Rmax. destruct (Rle_dec (k * k) (kt2 g axis q)) as [L|L].
    - unfold axial. rewrite Rmax_left by lra. rewrite sqrt_0. unfold Rdiv. ring.
    - rewrite sqrt_square by lra. field. lra.
  Qed.
  Lemma evanescent_axial q : ~ propagates g axis k q -> axial g axis k q = 0%R.
  Proof. unfold propagates, axial. intros H. rewrite Rmax_left by lra. apply sqrt_0. Qed.
  Lemma dispersion q : propagates g axis k q -> (rsum 3 (fun c => wave_vector g axis k c q * wave_vector g axis k c q) = k * k)%R.
  Proof. intros H. rewrite wave_vector_norm. apply Rmax_left. exact H. Qed.
End Real.

(** ** Histories in the background *)
Lemma propagator_plus b x y q : propagator b (x + y) q = propagator b x q * propagator b y q.
Proof. unfold propagator. rewrite <- cexp_plus. f_equal. rewrite RtoC_plus. ring. Qed.
Lemma propagator_0 b q : propagator b 0 q = 1.
Proof. unfold propagator. rewrite <- cexp_0. f_equal. ring. Qed.
Definition wave (b : setup) (s : section) : vfield := fun c q => field_hat s c q * propagator b (pending s) q.
Lemma propagate_none b s d : propagate b s d None = if Req_EM_T d 0 then s else move s d.
Proof.
  unfold propagate. destruct (Req_EM_T d 0) as [->|N]; [rewrite !Rltb_false by lra; reflexivity|].
  destruct (Rlt_dec d 0); [rewrite (Rltb_true d 0), (Rltb_false 0 d) by lra; reflexivity|rewrite (Rltb_false d 0), (Rltb_true 0 d) by lra; reflexivity].
Qed.
Lemma wave_move b s d c q : wave b (move s d) c q = wave b s c q * propagator b d q.
Proof. unfold wave, move. cbn. rewrite propagator_plus. ring. Qed.
Lemma wave_settle b s c q : wave b (settle b s) c q = wave b s c q.
Proof. unfold wave, settle. destruct (tiny _); [reflexivity|]. cbn [field_hat pending]. rewrite propagator_0. ring. Qed.
Lemma wave_propagate b s d c q : wave b (propagate b s d None) c q = wave b s c q * propagator b d q.
Proof. rewrite propagate_none. destruct (Req_EM_T d 0) as [->|]; [rewrite propagator_0; ring|apply wave_move]. Qed.
Lemma wave_run b l : forall s c q, Forall homogeneous l -> wave b (run b s l) c q = wave b s c q * propagator b (total l) q.
Proof.
  induction l as [|a l IH]; intros s c q H; [cbn; rewrite propagator_0; ring|]. inversion H as [|? ? Ha Hl]; subst.
  change (run b s (a :: l)) with (run b (act b s a) l). rewrite IH by exact Hl. cbn [total fold_right]. rewrite propagator_plus.
  destruct a as [d [m|]| | | |]; try contradiction; cbn [act travelled].
  - rewrite wave_propagate. fold (total l). ring.
  - rewrite wave_settle, propagator_0. fold (total l). ring.
  - rewrite wave_settle, propagator_0. fold (total l). ring.
Qed.
(** What is read is the wave, but for a distance that counts as zero. *)
Lemma settle_pending b s : (Rabs (pending (settle b s)) <= / 100000000)%R.
Proof. unfold settle. destruct (tiny _) eqn:E; [apply tiny_true; exact E|cbn [pending]; rewrite Rabs_R0; lra]. Qed.
Lemma read_near b s : exists d, (Rabs d <= / 100000000)%R /\ (pending s = 0%R -> d = 0%R) /\ ((/ 100000000 < Rabs (pending s))%R -> d = 0%R) /\ forall c q, read_ft b s c q = wave b s c q * propagator b (- d) q.
Proof.
  exists (pending (settle b s)). split; [apply settle_pending|]. split; [|split].
  - intros H. unfold settle. rewrite H, Rabs_R0. replace (tiny 0) with true by (symmetry; apply tiny_true; lra). exact H.
  - intros H. unfold settle. apply tiny_false in H. rewrite H. reflexivity.
  - intros c q. rewrite <- wave_settle. unfold wave. rewrite <- Cmult_assoc, <- propagator_plus. rewrite Rplus_opp_r, propagator_0. unfold read_ft. ring.
Qed.
Lemma read_exact b s : pending s = 0%R \/ (/ 100000000 < Rabs (pending s))%R -> forall c q, read_ft b s c q = wave b s c q.
Proof. intros H c q. destruct (read_near b s) as (d & _ & H0 & H1 & E). rewrite E. destruct H as [H|H]; [rewrite (H0 H)|rewrite (H1 H)]; rewrite Ropp_0, propagator_0; ring. Qed.
Lemma read_wave_off b s : (Rabs (pending s) <= / 100000000)%R -> read_ft b s = field_hat s.
Proof. intros H. unfold read_ft, settle. apply tiny_true in H. rewrite H. reflexivity. Qed.

(** The spectrum that is read after an assignment and any history in the background. *)
Lemma history_near b s F l : Forall homogeneous l ->
  exists d, (Rabs d <= / 100000000)%R /\ forall c q, read_ft b (run b s (SetFt F :: l)) c q = project b F c q * propagator b (total l - d) q.
Proof.
  intros H. destruct (read_near b (run b s (SetFt F :: l))) as (d & D & _ & _ & E). exists d. split; [exact D|]. intros c q. rewrite E.
  change (run b s (SetFt F :: l)) with (run b (set_ft b F) l). rewrite wave_run by exact H. unfold wave, set_ft. cbn [field_hat pending]. unfold Rminus. rewrite propagator_plus, propagator_0. ring.
Qed.
Lemma moves_pending b l : forall s, Forall moving l -> pending (run b s l) = (pending s + total l)%R /\ field_hat (run b s l) = field_hat s.
Proof.
  induction l as [|a l IH]; intros s H; [cbn; split; [ring|reflexivity]|]. inversion H as [|? ? Ha Hl]; subst. destruct a as [d [m|]| | | |]; try contradiction.
  change (run b s (Propagate d None :: l)) with (run b (propagate b s d None) l). destruct (IH (propagate b s d None) Hl) as [E1 E2]. rewrite E1, E2. cbn [total fold_right travelled]. fold (total l).
  rewrite propagate_none. destruct (Req_EM_T d 0) as [->|]; cbn; split; try reflexivity; ring.
Qed.
Lemma history_exact b s F l : Forall moving l -> total l = 0%R \/ (/ 100000000 < Rabs (total l))%R ->
  forall c q, read_ft b (run b s (SetFt F :: l)) c q = project b F c q * propagator b (total l) q.
Proof.
  intros H T c q. change (run b s (SetFt F :: l)) with (run b (set_ft b F) l). destruct (moves_pending b l (set_ft b F) H) as [P1 P2]. cbn [set_ft pending] in P1. rewrite Rplus_0_l in P1.
  rewrite read_exact by (rewrite P1; exact T). unfold wave. rewrite P1, P2. reflexivity.
Qed.
(** A short distance has no effect on what is read. *)
Lemma history_stale b s F l : Forall moving l -> (Rabs (total l) <= / 100000000)%R ->
  forall c q, read_ft b (run b s (SetFt F :: l)) c q = project b F c q.
Proof.
  intros H T c q. change (run b s (SetFt F :: l)) with (run b (set_ft b F) l). destruct (moves_pending b l (set_ft b F) H) as [P1 P2]. cbn [set_ft pending] in P1. rewrite Rplus_0_l in P1.
  rewrite read_wave_off by (rewrite P1; exact T). rewrite P2. reflexivity.
Qed.

(** ** Space and spectrum *)
Lemma section_phase g axis first q p : section_grid g axis -> inside (rshape g) q -> inside (rshape g) p ->
  cis (rsum 3 (fun c => kvec g c q * coordinate g first p c)%R) = cis (rsum 3 (fun c => kvec g c q * first c)%R) * cis (phase (rshape g) p q).
Proof.
  intros (L & L' & _ & _ & _ & St) Hq Hp. rewrite phase_rsum by assumption. rewrite L. rewrite <- cis_plus, <- rsum_plus. apply cis_rsum. intros i Hi.
  unfold coordinate. rewrite Rmult_plus_distr_l, !cis_plus. f_equal. assert (i < length (rshape g))%nat as Hi' by lia.
  pose proof (inside_nth _ _ i Hp Hi'). pose proof (inside_nth _ _ i Hq Hi').
  specialize (St i Hi). unfold kvec, k_axis. rewrite (nth_indep (rstep g) 1%R 0%R) by lia. rewrite (nth_indep (rshape g) 0%nat 1%nat) in St by lia.
  set (n := nth i (rshape g) 1%nat) in *. set (d := nth i (rstep g) 0%R) in *. set (j := nth i p 0%nat) in *. set (m := nth i q 0%nat) in *.
  assert (0 < INR n)%R by (apply lt_0_INR; lia). destruct (Nat.eq_dec n 1) as [N|N].
  - replace j with 0%nat by lia. cbn [INR]. f_equal. unfold Rdiv. ring.
  - specialize (St ltac:(lia)). unfold k_index. destruct (Nat.ltb (2 * m) n).
    + f_equal. rewrite <- INR_IZR_INZ. field. split; lra || assumption.
    + rewrite minus_IZR, <- !INR_IZR_INZ.
      replace (2 * PI * (INR m - INR n) / (INR n * d) * (d * INR j))%R with (2 * PI * (INR j * INR m) / INR n + 2 * PI * IZR (- Z.of_nat j))%R.
      * rewrite cis_plus, cis_2PI_Z. ring.
      * rewrite opp_IZR, <- INR_IZR_INZ. field. split; lra || assumption.
Qed.
Lemma to_space_ift b F p : section_grid (bgrid b) (baxis b) -> inside (bshape b) p ->
  ift (bshape b) (fun q => F q * shift_ft b q) p = to_space (bgrid b) (bfirst b) F p.
Proof.
  intros G Hp. unfold ift, to_space. unfold bshape in *. f_equal. apply sum_over_ext. intros q Hq. rewrite (section_phase _ (baxis b)) by assumption. unfold shift_ft. ring.
Qed.
Lemma to_spectrum_ft b f q : section_grid (bgrid b) (baxis b) -> inside (bshape b) q ->
  ft (bshape b) f q * Cconj (shift_ft b q) = to_spectrum (bgrid b) (bfirst b) f q.
Proof.
  intros G Hq. unfold ft, to_spectrum, bshape in *. rewrite <- sum_over_scal_r. apply sum_over_ext. intros p Hp. rewrite !cis_neg, (section_phase _ (baxis b)) by assumption. rewrite Cconj_mult. unfold shift_ft. rewrite (phase_sym _ p q). ring.
Qed.
