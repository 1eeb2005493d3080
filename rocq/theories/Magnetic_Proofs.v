(** Proofs of the convergence in magnetic media with the constants of the constructor. *)
From Coq Require Import Reals Lra Lia List Arith Bool.
Require Import Verif.Base Verif.Cplx Verif.CSum Verif.Field Verif.Fourier_Model Verif.Fourier_Spec Verif.Fourier_Proofs Verif.Display_Model.
Require Import Verif.Vec_Model Verif.Vec_Spec Verif.Vec_Proofs Verif.Solver_Model Verif.Solver_Spec Verif.Solver_Proofs.
Require Import Verif.Solver_Convergence Verif.Solver_Limit Verif.Solver_Choice Verif.Choice_Model Verif.Choice_Proofs.
Require Import Verif.Derived_Model Verif.Derived_Spec Verif.Derived_Tensor Verif.Solver_Maxwell Verif.Derived_Proofs.
Require Import Verif.Operator_Convergence Verif.Magnetic_Norm Verif.Magnetic_Spec Verif.Magnetic_Choice.
Import ListNotations.
Local Open Scope R_scope.
Local Open Scope C_scope.

Lemma sigma_D_highest g k0 : proper g -> sigma_D (rstep g) k0 = highest_frequency g k0.
Proof.
  intros (_ & _ & H). unfold sigma_D, highest_frequency. do 2 f_equal. induction H as [|d l Hd _ IH]; cbn [fold_right]; [reflexivity|]. rewrite IH. f_equal. field. exact Hd.
Qed.

Section Magnetic.
  Variables (eps : R) (u : si) (g : raster) (k0 : R) (epsilon xi zeta mu nu : tensor) (settled : R * R) (thick : option R) (J : vfield) (kappa : C) (loss : R).
  Hypothesis He : (0 < eps)%R.
  Hypothesis He1 : (2 * eps <= 1)%R.
  Hypothesis Hu : physical u.
  Hypothesis Hs : solvable true g k0.
  Hypothesis Hk : (0 < k0)%R.
  Hypothesis Hnu : inverse_of (rshape g) mu nu.
  Hypothesis Hm : is_magnetic (rshape g) xi zeta mu = true.
  Let beta := (snd settled * snd settled)%R.
  Hypothesis Hprec : (20 * sqrt (2 * sqrt eps) * ((1 + highest_frequency g k0) * (1 + highest_frequency g k0)) < beta)%R.
  Hypothesis Hcouple : forall G, vagree 3 (rshape g) (coupling xi zeta nu G) (fun c p => kappa * G c p).
  Hypothesis Hloss : dissipates (rshape g) epsilon xi zeta mu loss.
  Hypothesis Hloss0 : (0 <= loss)%R.
  Let o := construct eps g k0 true epsilon xi zeta mu settled thick (driving u k0 J).
  Let alpha := o_alpha o.
  Let s := rshape g.
  Let T := medium_op g k0 beta epsilon xi zeta nu.
  Let reach := (singular_value_sum eps s (sigma_D (rstep g) k0) epsilon xi zeta mu (fst alpha) beta
    + sqrt (2 * sqrt eps) / beta * ((1 + sigma_D (rstep g) k0) * (1 + sigma_D (rstep g) k0)))%R.

  Lemma mp_prepare : o = prepare (scaled k0 g) true true alpha beta epsilon xi zeta mu (driving u k0 J).
  Proof. unfold alpha, o, construct, choose. rewrite Hm. reflexivity. Qed.
  Lemma mp_sigma : (0 <= sigma_D (rstep g) k0)%R.
  Proof. exact (mc_D g k0 Hk). Qed.
  Lemma mp_beta : (0 < beta)%R.
  Proof. eapply Rle_lt_trans; [|exact Hprec]. rewrite <- sigma_D_highest by apply Hs. pose proof mp_sigma. pose proof (sqrt_pos (2 * sqrt eps)). apply Rmult_le_pos; nra. Qed.
  Lemma mp_sum_nonneg ar : (0 <= singular_value_sum eps s (sigma_D (rstep g) k0) epsilon xi zeta mu ar beta)%R.
  Proof.
    pose proof mp_beta as Hb. pose proof mp_sigma as HD. unfold singular_value_sum.
    assert (0 <= sigma_HH eps s mu beta)%R by (rewrite sigma_HH_EE; apply sigma_EE_nonneg, Hb).
    pose proof (sigma_EE_nonneg eps s (effective_epsilon epsilon xi zeta mu) ar beta Hb).
    assert (forall t, 0 <= largest_singularvalue eps s t)%R as Hl by (intros t; apply sqrt_pos).
    pose proof (Hl (tscale (- Ci) (tmul xi (tinv mu)))). pose proof (Hl (tscale Ci (tmul (tinv mu) zeta))).
    rewrite (Rabs_pos_eq beta) by lra. assert (0 < / beta)%R by (apply Rinv_0_lt_compat, Hb).
    apply Rplus_le_le_0_compat; [|assumption]. apply Rplus_le_le_0_compat; [nra|]. unfold Rdiv. apply Rmult_le_pos; [nra|lra].
  Qed.
  Lemma mp_alpha : (0 <= reach < snd alpha)%R.
  Proof.
    pose proof mp_beta as Hb. pose proof (mp_sum_nonneg (fst alpha)) as H0. pose proof mp_sigma as HD. pose proof (sqrt_pos (2 * sqrt eps)) as Ht.
    rewrite <- sigma_D_highest in Hprec by apply Hs. set (D := sigma_D (rstep g) k0) in *.
    assert (0 < / beta)%R as Hib by (apply Rinv_0_lt_compat, Hb).
    assert (sqrt (2 * sqrt eps) / beta * ((1 + D) * (1 + D)) < 5 / 100)%R as Hsm.
    { apply (Rmult_lt_compat_l (/ beta)) in Hprec; [|exact Hib]. rewrite Rinv_l in Hprec by lra.
      replace (/ beta * (20 * sqrt (2 * sqrt eps) * ((1 + D) * (1 + D))))%R with (20 * (sqrt (2 * sqrt eps) / beta * ((1 + D) * (1 + D))))%R in Hprec by (unfold Rdiv; ring). lra. }
    assert (0 <= sqrt (2 * sqrt eps) / beta * ((1 + D) * (1 + D)))%R as Hnn by (apply Rmult_le_pos; [apply Rmult_le_pos; lra|nra]).
    assert (singular_value_sum eps s D epsilon xi zeta mu (fst alpha) beta + 5 / 100 <= snd alpha)%R as Hal.
    { unfold alpha, o, construct, choose. rewrite Hm. cbn [o_alpha prepare precondition update_operators fst snd]. apply (bias_ge (fst settled, _)). }
    unfold reach. lra.
  Qed.
  Lemma mp_ai : (0 < snd alpha)%R.
  Proof. pose proof mp_alpha. lra. Qed.
  Let rho := (reach / snd alpha)%R.
  Lemma mp_rho : (0 <= rho < 1)%R.
  Proof.
    pose proof mp_alpha as (H1 & H2). pose proof mp_ai as H. unfold rho. split; [apply Rmult_le_pos; [exact H1|left; apply Rinv_0_lt_compat, H]|].
    apply Rmult_lt_reg_r with (snd alpha); [exact H|]. unfold Rdiv. rewrite Rmult_assoc, Rinv_l by lra. lra.
  Qed.
  Lemma mp_fine : fine o.
  Proof.
    rewrite mp_prepare. apply (mg_fine g k0 alpha beta epsilon xi zeta mu (driving u k0 J) Hs). pose proof mp_ai. lra.
  Qed.
  Lemma mp_chi F : vagree 3 s (chi_op o F) (fun c p => Ci / im (o_alpha o) * (T F c p - o_alpha o * F c p)).
  Proof.
    fold alpha. rewrite mp_prepare at 1. apply (mg_chi g k0 alpha beta epsilon xi zeta mu nu (driving u k0 J) Hs); [pose proof mp_ai; lra|pose proof mp_beta; lra|exact Hnu].
  Qed.
  Lemma mp_deviation d : (vnorm2 3 s (fun c p => T d c p - RtoC (fst (o_alpha o)) * d c p)%C <= (rho * snd (o_alpha o)) * (rho * snd (o_alpha o)) * vnorm2 3 s d)%R.
  Proof.
    fold alpha. pose proof mp_ai as Ha. replace (rho * snd alpha)%R with reach by (unfold rho; field; lra). apply vnorm_le2; [apply mp_alpha|].
    exact (mc_deviation eps g k0 beta epsilon xi zeta mu nu He He1 Hs Hk mp_beta Hnu (fst alpha) d).
  Qed.
  Let tminus := mc_minus g k0 beta epsilon xi zeta nu Hs.
  Let tvagree := mc_vagree g k0 beta epsilon xi zeta nu Hs.
  Let tloss := mc_absorbs g k0 beta epsilon xi zeta mu nu Hs Hk mp_beta Hnu kappa loss Hcouple Hloss.
  Lemma mp_loss0 : (0 <= loss / beta)%R.
  Proof. apply Rmult_le_pos; [exact Hloss0|left; apply Rinv_0_lt_compat, mp_beta]. Qed.
  Lemma mp_shape : rshape (o_grid o) = s /\ vector_length o = 3%nat.
  Proof. rewrite mp_prepare. split; reflexivity. Qed.

  Lemma mp_injective : operator_injective 3 s (chi_op o).
  Proof.
    pose proof mp_shape as (E1 & E2).
    pose proof (chi_injective o T mp_ai) as H. rewrite E1, E2 in H. exact (H mp_chi rho mp_deviation (proj1 mp_rho) (proj2 mp_rho)).
  Qed.
  Lemma mp_never_grows F : (vnorm2 3 s (update o (next_field o F)) <= vnorm2 3 s (update o F))%R.
  Proof.
    pose proof mp_shape as (E1 & E2). pose proof (corrections_nonincreasing o T mp_fine mp_ai) as H. rewrite E1, E2 in H.
    exact (H tminus tvagree mp_chi (loss / beta)%R rho tloss mp_loss0 mp_deviation (proj1 mp_rho) F (Rlt_le _ _ (proj2 mp_rho))).
  Qed.
  Lemma mp_couples F : couples g k0 xi zeta nu F.
  Proof. apply (uniform_coupling g k0 xi zeta nu kappa); [apply Hs; reflexivity|exact Hcouple]. Qed.
  Lemma mp_fixed F : vagree 3 s (update o F) (fun _ _ => 0) <-> maxwell u g k0 epsilon xi zeta mu (electric_field k0 F) (magnetizing_field u o k0 F) J.
  Proof.
    pose proof mp_injective as Hi. rewrite mp_prepare in Hi |- *. assert (snd alpha <> 0%R) as Ha by (pose proof mp_ai; lra). assert (beta <> 0%R) as Hb by (pose proof mp_beta; lra). split; intros H.
    - apply (mf_maxwell_iff u g k0 alpha beta epsilon xi zeta mu nu J F Hu Hs Ha Hb Hnu Hi H). apply mp_couples.
    - exact (proj1 (mf_fixed_of_maxwell u g k0 alpha beta epsilon xi zeta mu nu J F Hu Hs Ha Hb Hnu _ (mp_couples F) H)).
  Qed.
  Lemma mp_solution E H : maxwell u g k0 epsilon xi zeta mu E H J ->
    vagree 3 s (update o (fun c p => RtoC (k0 * k0) * E c p)) (fun _ _ => 0) /\ vagree 3 s H (magnetizing_field u o k0 (fun c p => RtoC (k0 * k0) * E c p)).
  Proof.
    intros HM. rewrite mp_prepare. assert (snd alpha <> 0%R) as Ha by (pose proof mp_ai; lra). assert (beta <> 0%R) as Hb by (pose proof mp_beta; lra).
    apply (mf_fixed_of_maxwell u g k0 alpha beta epsilon xi zeta mu nu J _ Hu Hs Ha Hb Hnu H (mp_couples _)).
    rewrite si_scaled_back by lra. exact HM.
  Qed.
  Lemma mp_vanish E H F m : maxwell u g k0 epsilon xi zeta mu E H J ->
    (INR (m + 1) * vnorm2 3 s (update o (Nat.iter m (next_field o) F)) <= 4 / (1 - rho * rho) * vnorm2 3 s (fun c p => F c p - RtoC (k0 * k0) * E c p)%C)%R.
  Proof.
    intros HM. rewrite Nat.add_1_r. pose proof mp_shape as (E1 & E2). pose proof (updates_rate o T mp_fine mp_ai) as HR. rewrite E1, E2 in HR.
    exact (HR tminus tvagree mp_chi (loss / beta)%R rho tloss mp_loss0 mp_deviation (proj1 mp_rho) F _ m (proj2 mp_rho) (proj1 (mp_solution E H HM))).
  Qed.
  Lemma mp_converges F : (0 < loss)%R -> exists (E : vfield) H (q : R), (0 <= q < 1)%R /\ maxwell u g k0 epsilon xi zeta mu E H J /\
    (forall E' H', maxwell u g k0 epsilon xi zeta mu E' H' J -> vagree 3 s E' E) /\
    forall m, (vnorm2 3 s (fun c p => electric_field k0 (Nat.iter m (next_field o) F) c p - E c p)%C <=
               q ^ m * vnorm2 3 s (fun c p => electric_field k0 F c p - E c p)%C)%R.
  Proof.
    intros Hl. pose proof mp_rho as Hr. pose proof mp_ai as Ha. pose proof mp_beta as Hb. assert (k0 <> 0%R) as Hk' by lra.
    assert (0 < loss / beta / snd alpha)%R as Hq by (apply Rdiv_lt_0_compat; [apply Rdiv_lt_0_compat|]; assumption).
    set (k := Rmin (2 * (loss / beta / snd alpha)) (1 - rho * rho)).
    assert (k <= 2 * (loss / beta / snd alpha))%R as Hk1 by apply Rmin_l. assert (k <= 1 - rho * rho)%R as Hk2 by apply Rmin_r.
    assert (0 < k)%R as Hk0 by (apply Rmin_glb_lt; nra).
    pose proof mp_shape as (E1 & E2).
    pose proof (limit_fixed o T mp_fine mp_ai) as HL. rewrite E1, E2 in HL.
    specialize (HL tminus tvagree mp_chi (loss / beta)%R rho tloss mp_loss0 mp_deviation (proj1 mp_rho) k Hk1 Hk2 Hk0 F). set (L := limit o F) in HL.
    pose proof (fixed_unique o T mp_fine mp_ai) as HU. rewrite E1, E2 in HU.
    specialize (HU tminus tvagree mp_chi (loss / beta)%R rho tloss mp_deviation k Hk1 Hk2 Hk0).
    pose proof (error_geometric o T mp_fine mp_ai) as HG. rewrite E1, E2 in HG.
    specialize (HG tminus tvagree mp_chi (loss / beta)%R rho tloss mp_deviation k Hk1 Hk2 Hk0 F L).
    exists (electric_field k0 L), (magnetizing_field u o k0 L), (1 - k / 2)%R. assert (k <= 1)%R by nra. split; [lra|]. split; [apply mp_fixed; exact HL|]. split.
    - intros E' H' HM. pose proof (HU _ _ (proj1 (mp_solution E' H' HM)) HL) as HE. intros c p Hc Hp. unfold electric_field. rewrite <- (HE c p Hc Hp).
      field. apply RtoC_neq. nra.
    - intros m. specialize (HG m HL).
      assert (forall X, vnorm2 3 s (fun c p => X c p - L c p)%C = (k0 * k0 * (k0 * k0) * vnorm2 3 s (fun c p => electric_field k0 X c p - electric_field k0 L c p)%C)%R) as HN.
      { intros X. rewrite (vagree_vnorm2 3 s _ (fun c p => RtoC (k0 * k0) * (electric_field k0 X c p - electric_field k0 L c p))).
        - rewrite vnorm2_scal, Cmod_R, Rabs_pos_eq by nra. reflexivity.
        - intros c p _ _. unfold electric_field. field. apply RtoC_neq. nra. }
      rewrite !HN in HG. assert (0 < k0 * k0)%R by nra.
      apply Rmult_le_reg_l with (k0 * k0 * (k0 * k0))%R; [nra|]. eapply Rle_trans; [exact HG|]. apply Req_le. ring.
  Qed.
  (** One solution and one factor for all fields. *)
  Lemma mp_uniform : (0 < loss)%R -> exists (E : vfield) H (q : R), (0 <= q < 1)%R /\ maxwell u g k0 epsilon xi zeta mu E H J /\
    (forall E' H', maxwell u g k0 epsilon xi zeta mu E' H' J -> vagree 3 s E' E) /\
    forall F, (vnorm2 3 s (fun c p => electric_field k0 (next_field o F) c p - E c p)%C <= q * vnorm2 3 s (fun c p => electric_field k0 F c p - E c p)%C)%R.
  Proof.
    intros Hl. pose proof mp_rho as Hr. pose proof mp_ai as Ha. pose proof mp_beta as Hb. assert (k0 <> 0%R) as Hk' by lra.
    assert (0 < loss / beta / snd alpha)%R as Hq by (apply Rdiv_lt_0_compat; [apply Rdiv_lt_0_compat|]; assumption).
    set (k := Rmin (2 * (loss / beta / snd alpha)) (1 - rho * rho)).
    assert (k <= 2 * (loss / beta / snd alpha))%R as Hk1 by apply Rmin_l. assert (k <= 1 - rho * rho)%R as Hk2 by apply Rmin_r.
    assert (0 < k)%R as Hk0 by (apply Rmin_glb_lt; nra).
    pose proof mp_shape as (E1 & E2).
    pose proof (limit_fixed o T mp_fine mp_ai) as HL. rewrite E1, E2 in HL.
    specialize (HL tminus tvagree mp_chi (loss / beta)%R rho tloss mp_loss0 mp_deviation (proj1 mp_rho) k Hk1 Hk2 Hk0 (fun _ _ => RtoC 0)). set (L := limit o (fun _ _ => RtoC 0)) in HL.
    pose proof (fixed_unique o T mp_fine mp_ai) as HU. rewrite E1, E2 in HU.
    specialize (HU tminus tvagree mp_chi (loss / beta)%R rho tloss mp_deviation k Hk1 Hk2 Hk0).
    exists (electric_field k0 L), (magnetizing_field u o k0 L), (1 - k / 2)%R. assert (k <= 1)%R by nra. split; [lra|]. split; [apply mp_fixed; exact HL|]. split.
    - intros E' H' HM. pose proof (HU _ _ (proj1 (mp_solution E' H' HM)) HL) as HE. intros c p Hc Hp. unfold electric_field. rewrite <- (HE c p Hc Hp).
      field. apply RtoC_neq. nra.
    - intros F. pose proof (error_geometric o T mp_fine mp_ai) as HG. rewrite E1, E2 in HG.
      specialize (HG tminus tvagree mp_chi (loss / beta)%R rho tloss mp_deviation k Hk1 Hk2 Hk0 F L 1%nat HL). cbn [Nat.iter pow nat_rect] in HG. rewrite Rmult_1_r in HG.
      assert (forall X, vnorm2 3 s (fun c p => X c p - L c p)%C = (k0 * k0 * (k0 * k0) * vnorm2 3 s (fun c p => electric_field k0 X c p - electric_field k0 L c p)%C)%R) as HN.
      { intros X. rewrite (vagree_vnorm2 3 s _ (fun c p => RtoC (k0 * k0) * (electric_field k0 X c p - electric_field k0 L c p))).
        - rewrite vnorm2_scal, Cmod_R, Rabs_pos_eq by nra. reflexivity.
        - intros c p _ _. unfold electric_field. field. apply RtoC_neq. nra. }
      rewrite !HN in HG. assert (0 < k0 * k0)%R by nra.
      apply Rmult_le_reg_l with (k0 * k0 * (k0 * k0))%R; [nra|]. eapply Rle_trans; [exact HG|]. apply Req_le. ring.
  Qed.
  (** Without loss. *)
  Lemma mp_distance E H F : maxwell u g k0 epsilon xi zeta mu E H J ->
    (vnorm2 3 s (fun c p => electric_field k0 (next_field o F) c p - E c p)%C <= vnorm2 3 s (fun c p => electric_field k0 F c p - E c p)%C)%R.
  Proof.
    intros HM. pose proof mp_shape as (E1 & E2).
    destruct (mp_solution E H HM) as (Hfix & _).
    pose proof (distance_nonincreasing o T mp_fine mp_ai) as HD. rewrite E1, E2 in HD.
    assert (V : vagree 3 s (next_field o (fun c p => RtoC (k0 * k0) * E c p)) (fun c p => RtoC (k0 * k0) * E c p)).
    { pose proof (fixed_next o) as HF. rewrite E1, E2 in HF. apply HF. exact Hfix. }
    specialize (HD tminus tvagree mp_chi (loss / beta)%R rho tloss mp_loss0 mp_deviation (proj1 mp_rho) F (fun c p => RtoC (k0 * k0) * E c p) (Rlt_le _ _ (proj2 mp_rho))).
    assert (forall X, vnorm2 3 s (fun c p => X c p - RtoC (k0 * k0) * E c p)%C = (k0 * k0 * (k0 * k0) * vnorm2 3 s (fun c p => electric_field k0 X c p - E c p)%C)%R) as HN.
    { intros X. rewrite (vagree_vnorm2 3 s _ (fun c p => RtoC (k0 * k0) * (electric_field k0 X c p - E c p))).
      - rewrite vnorm2_scal, Cmod_R, Rabs_pos_eq by nra. reflexivity.
      - intros c p _ _. unfold electric_field. field. apply RtoC_neq. nra. }
    rewrite (vagree_vnorm2 3 s _ (fun c p => next_field o F c p - RtoC (k0 * k0) * E c p)) in HD by (intros c p Hc Hp; rewrite (V c p Hc Hp); reflexivity).
    rewrite !HN in HD. assert (0 < k0 * k0)%R by nra. apply Rmult_le_reg_l with (k0 * k0 * (k0 * k0))%R; [nra|]. exact HD.
  Qed.
End Magnetic.
