(** Registration to whole points, and the registered image. *)
From Coq Require Import Reals List Arith Bool ZArith Lia Lra.
From Flocq Require Import Core.
Require Import Verif.Base Verif.CSum Verif.Field Verif.Fourier_Model Verif.Fourier_Spec Verif.Fourier_Proofs Verif.Vec_Model Verif.Modes_Model Verif.Modes_Proofs.
Require Import Verif.Shift_Model Verif.Shift_Spec Verif.Shift_Proofs Verif.Shift_Moves Verif.Register_Model Verif.Register_Spec Verif.Register_Proofs Verif.Cplx.
Import ListNotations.
Local Open Scope R_scope.
Local Open Scope C_scope.

(** ** argmax *)
Lemma first_max_spec h l : forall b, (first_max h b l = b \/ In (first_max h b l) l) /\ (h b <= h (first_max h b l))%R /\ forall p, In p l -> (h p <= h (first_max h b l))%R.
Proof.
  induction l as [|x l IH]; intros b; cbn [first_max]; [repeat split; auto; [lra|contradiction]|]. destruct (IH (if Rltb (h b) (h x) then x else b)) as (I & B & M).
  unfold Rltb in *. destruct (Rlt_dec (h b) (h x)) as [L|L].
  - split; [right; destruct I as [->|I]; [left; reflexivity|right; exact I]|]. split; [lra|]. intros p [<-|Hp]; [exact B|apply M, Hp].
  - split; [destruct I as [->|I]; [left; reflexivity|right; right; exact I]|]. split; [exact B|]. intros p [<-|Hp]; [lra|apply M, Hp].
Qed.
Lemma indices_nonempty s : nonempty s -> indices s <> [].
Proof.
  intros S E. assert (inside s (map (fun _ => 0%nat) s)) as H by (clear E; induction S; cbn [map]; [constructor|constructor; assumption]).
  apply indices_inside in H. rewrite E in H. contradiction.
Qed.
Lemma argmax_spec s h : nonempty s -> inside s (argmax s h) /\ forall p, inside s p -> (h p <= h (argmax s h))%R.
Proof.
  intros S. unfold argmax. pose proof (indices_nonempty s S) as N. destruct (indices s) as [|b l] eqn:E; [contradiction|]. destruct (first_max_spec h l b) as (I & B & M). split.
  - apply indices_inside. rewrite E. destruct I as [->|I]; [left; reflexivity|right; exact I].
  - intros p Hp. apply indices_inside in Hp. rewrite E in Hp. destruct Hp as [<-|Hp]; [exact B|apply M, Hp].
Qed.

(** ** The image of a Registration *)
Lemma right_mask_full s : right_mask s (length s) = repeat true (length s).
Proof.
  unfold right_mask. generalize (length s) at 3 4. intros m. assert (forall a, map (fun a => (length s <=? a + length s)%nat) (seq a m) = repeat true m) as H; [|apply H].
  induction m as [|m IH]; intros a; [reflexivity|]. cbn [seq map repeat]. rewrite IH. f_equal. apply Nat.leb_le. lia.
Qed.
Lemma part_ft_true s : forall f q, inside s q -> part_ft (repeat true (length s)) s f q = ft s f q.
Proof.
  induction s as [|n s IH]; intros f q Hq; inversion Hq; subst; cbn [length repeat part_ft]; [unfold ft; cbn; rewrite Ropp_0, cis_0; ring|]. rewrite ft_cons. apply csum_ext. intros j _. rewrite IH by assumption. reflexivity.
Qed.
Lemma part_ift_true s : forall f p, inside s p -> part_ift (repeat true (length s)) s f p = ift s f p.
Proof.
  induction s as [|n s IH]; intros f p Hp; inversion Hp as [|? i ? p' Hi Hp']; subst; cbn [length repeat part_ift]; [unfold ift; cbn; rewrite cis_0; field; intros H; apply RtoC_inj in H; lra|].
  pose proof (inside_nonempty _ _ Hp') as S. pose proof (points_neq_0 s S) as N. assert (RtoC (INR n) <> 0) as N' by (intros H; apply RtoC_inj in H; apply (not_0_INR n); [lia|exact H]).
  rewrite (csum_ext n _ (fun j => cis (2 * PI * (INR i * INR j) / INR n) * sum_over s (fun k => f (j :: k) * cis (phase s p' k)) * / RtoC (INR (points s)))) by (intros j _; rewrite IH by assumption; unfold ift, Cdiv; ring).
  rewrite csum_scal_r. unfold ift. cbn [sum_over points fold_right]. fold (points s). rewrite mult_INR, RtoC_mult.
  replace (csum n (fun j => sum_over s (fun q => f (j :: q) * cis (phase (n :: s) (i :: p') (j :: q))))) with (csum n (fun j => cis (2 * PI * (INR i * INR j) / INR n) * sum_over s (fun k => f (j :: k) * cis (phase s p' k)))); [field; split; assumption|].
  apply csum_ext. intros j _. rewrite <- sum_over_scal. apply sum_over_ext. intros q _. cbn [phase]. rewrite cis_plus. ring.
Qed.
Lemma roll_ft_full s t F : length t = length s -> Forall2 resolved_shift s t -> exists G, roll_ft s None t F = Ok G /\ forall q, G q = F q * cis (- angle s q t).
Proof.
  intros L R. unfold roll_ft. destruct (forallb near_zero t) eqn:E.
  - exists F. split; [reflexivity|]. intros q. rewrite zero_angle, Ropp_0, cis_0; [ring|]. rewrite forallb_forall in E. apply Forall_forall. intros x Hx. pose proof (proj1 (near_zero_true x) (E x Hx)) as H.
    clear E. revert t L R Hx. induction s as [|n s IH]; intros t L R Hx; inversion R as [|? d ? t' R1 R2]; subst; [contradiction|]. destruct Hx as [<-|Hx]; [destruct R1 as [R1|[R1 _]]; [exact R1|lra]|]. injection L as L. apply (IH t'); assumption.
  - rewrite default_axes by lia. unfold assigned. rewrite seq_length, Nat.eqb_refl. cbn [bind]. eexists. split; [reflexivity|]. intros q.
    pose proof (per_axis_right (length s) t ltac:(lia)) as P. rewrite P. rewrite L, Nat.sub_diag. cbn [repeat app]. rewrite turn_angle by exact R. reflexivity.
Qed.
Lemma resolved_back s t : Forall2 resolved_shift s t -> Forall2 resolved_shift s (back t).
Proof.
  induction 1 as [|n d s t R _ IH]; constructor; [|exact IH]. destruct R as [->|[R1 R2]]; [left; ring|right]. rewrite Rabs_Ropp. split; [exact R1|]. replace (2 * PI * - d / INR n)%R with (- (2 * PI * d / INR n))%R by (unfold Rdiv; ring). rewrite Rabs_Ropp. exact R2.
Qed.
Lemma image_moved s g t z f : length t = length s -> Forall2 resolved_shift s t -> g_shift g = t -> g_factor g = Finite z -> (/ 100000000 < Cmod z)%R -> original_hat g = Some (ft s f) -> registered_hat g = None ->
  exists h, image s g = Ok h /\ agree s h (fun p => / z * moved s (back t) f p).
Proof.
  intros L R S Z M O E. unfold image, image_ft. rewrite E, O, S, Z. unfold factor_vanishes. replace (near_zero (Cmod z)) with false by (symmetry; apply near_zero_false; rewrite Rabs_pos_eq; [exact M|apply Cmod_ge_0]).
  change (map Ropp t) with (back t).
  destruct (roll_ft_full s (back t) (ft s f)) as (G & -> & HG); [rewrite back_length; exact L|apply resolved_back, R|]. cbn [rmap]. eexists. split; [reflexivity|]. intros p Hp.
  rewrite L, right_mask_full, part_ift_true by exact Hp. rewrite (moved_ift s (back t) f) by (exact Hp || (rewrite back_length; exact L)). rewrite <- ift_scal. apply ift_ext. intros q _. cbn [divided]. rewrite HG. unfold Cdiv. ring.
Qed.

(** ** The outcome of register, for a located shift *)
Lemma register_located s r f precision t peak : lit s r -> lit s f -> length t = length s -> Forall2 resolved_shift s t ->
  locate s (cross_ft s (ft s r) (ft s f)) precision = Ok (t, peak) -> peak = val s (cross_ft s (ft s r) (ft s f)) t ->
  exists g e, register s (Some f) (Some r) (Some precision) = Ok g /\ g_shift g = t /\ g_error g = Some e /\ (0 <= e <= 1)%R /\
    (forall a, (e * e * norm2 s r <= misfit s r f t a)%R) /\ (exists a, misfit s r f t a = (e * e * norm2 s r)%R) /\
    (g_factor g = Infinite /\ (Cmod (ip s r (moved s (back t) f)) <= / 100000000 * sqrt (norm2 s r))%R \/ exists z, g_factor g = Finite z /\ z <> 0 /\ misfit s r f t (/ z) = (e * e * norm2 s r)%R /\
      ((/ 100000000 < Cmod z)%R -> exists h, image s g = Ok h /\ agree s h (fun p => / z * moved s (back t) f p))).
Proof.
  intros Lr Lf T R L ->. unfold register, register_ft. rewrite L. cbn [bind]. eexists. eexists. split; [reflexivity|]. cbn [g_shift g_error g_factor].
  pose proof (sqrt_lt_R0 _ (lit_pos _ _ Lf)) as P. pose proof (lit_nonempty _ _ Lr) as S.
  destruct (report_error s r f t Lr Lf T) as [B E]. split; [reflexivity|]. split; [destruct (Req_EM_T _ 0) as [H|_]; [exfalso; rewrite norm2_mean in H by exact S; lra|reflexivity]|].
  split; [exact B|]. split; [intros a; rewrite E; apply misfit_least; assumption|]. split; [eexists; rewrite E; apply misfit_best; assumption|].
  destruct (near_zero _) eqn:Z; [left|right].
  { split; [reflexivity|]. apply near_zero_true in Z. rewrite Rabs_pos_eq, (peak_mod s r f) in Z by (assumption || apply Cmod_ge_0). pose proof (sqrt_lt_R0 _ (lit_pos _ _ Lr)) as Q.
    apply (Rmult_le_reg_r (/ sqrt (norm2 s r))); [apply Rinv_0_lt_compat, Q|]. rewrite Rmult_assoc, Rinv_r by lra. unfold Rdiv in Z. lra. }
  apply near_zero_false in Z. rewrite Rabs_pos_eq in Z by apply Cmod_ge_0.
  assert (0 < Cmod (val s (cross_ft s (ft s r) (ft s f)) t))%R as Z' by lra. eexists. split; [reflexivity|]. pose proof (report_factor s r f t Lr Lf T Z') as F.
  assert (RtoC (mean2 s (ft s f)) / (Cconj (val s (cross_ft s (ft s r) (ft s f)) t) * RtoC (reference_norm s (ft s r))) <> 0) as N.
  { unfold reference_norm. rewrite !norm2_mean by exact S. apply Cmod_gt_0 in Z'.
    assert (Cconj (val s (cross_ft s (ft s r) (ft s f)) t) * RtoC (sqrt (norm2 s r)) <> 0) as N1.
    { apply Cmult_neq_0; [intros H; apply Z'; rewrite <- (Cconj_conj (val _ _ _)), H; apply Cconj_R|]. intros H. apply RtoC_inj in H. pose proof (sqrt_lt_R0 _ (lit_pos _ _ Lr)). lra. }
    apply Cmult_neq_0; [intros H; apply RtoC_inj in H; pose proof (lit_pos _ _ Lf); lra|]. intros H.
    apply (f_equal (fun x => x * (Cconj (val s (cross_ft s (ft s r) (ft s f)) t) * RtoC (sqrt (norm2 s r))))) in H. rewrite Cinv_l in H by exact N1. rewrite Cmult_0_l in H. apply RtoC_inj in H. lra. }
  split; [exact N|]. split; [rewrite F, E; apply misfit_best; assumption|]. intros M. apply image_moved; auto.
Qed.
