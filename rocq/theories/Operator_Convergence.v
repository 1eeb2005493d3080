(** The convergence proof for any linear operator of the medium: the non-magnetic, the magnetic and the bi-anisotropic case. *)
From Coq Require Import Reals Lra Lia List Arith Bool.
From Coquelicot Require Import Rbar Hierarchy Lim_seq Series.
Require Import Verif.Base Verif.Cplx Verif.CSum Verif.Field Verif.Fourier_Model Verif.Fourier_Spec Verif.Fourier_Proofs.
Require Import Verif.Vec_Model Verif.Vec_Spec Verif.Vec_Proofs Verif.Solver_Model Verif.Solver_Spec Verif.Solver_Proofs.
Require Import Verif.Solver_Convergence Verif.Solver_Limit Verif.Derived_Spec.
Import ListNotations.
Local Open Scope R_scope.
Local Open Scope C_scope.

Section Operator.
  Variables (o : ops) (T : vfield -> vfield).
  Hypothesis Hfine : fine o.
  Hypothesis Ha : (0 < snd (o_alpha o))%R.
  Let n := vector_length o.
  Let s := rshape (o_grid o).
  Hypothesis T_minus : forall F G, vagree n s (T (fun c p => F c p - G c p)) (fun c p => T F c p - T G c p).
  Hypothesis T_vagree : forall F G, vagree n s F G -> vagree n s (T F) (T G).
  Hypothesis Hchi : forall F, vagree n s (chi_op o F) (fun c p => Ci / im (o_alpha o) * (T F c p - o_alpha o * F c p)).
  Let W (F : vfield) : vfield := fun c p => Ci / im (o_alpha o) * (T F c p - RtoC (fst (o_alpha o)) * F c p).
  Let M (F : vfield) : vfield := fun c p => F c p + chi_op o (fun c p => green_op o (chi_op o F) c p - F c p) c p.

  Lemma op_ai : snd (o_alpha o) <> 0%R.
  Proof. lra. Qed.
  Lemma op_alpha : o_alpha o - RtoC (fst (o_alpha o)) = Ci * im (o_alpha o).
  Proof. unfold im. apply C_eq; cbn; ring. Qed.
  Lemma op_chi F : vagree n s (chi_op o F) (fun c p => F c p + W F c p).
  Proof.
    intros c p Hc Hp. rewrite (Hchi F c p Hc Hp). unfold W.
    transitivity (Ci / im (o_alpha o) * (T F c p - RtoC (fst (o_alpha o)) * F c p) - Ci * (o_alpha o - RtoC (fst (o_alpha o))) / im (o_alpha o) * F c p).
    - field. apply im_neq, op_ai.
    - rewrite op_alpha. replace (Ci * (Ci * im (o_alpha o)) / im (o_alpha o)) with (Ci * Ci) by (field; apply im_neq, op_ai). rewrite Ci_sq. ring.
  Qed.
  Lemma W_minus F G : vagree n s (W (fun c p => F c p - G c p)) (fun c p => W F c p - W G c p).
  Proof. intros c p Hc Hp. unfold W. rewrite (T_minus F G c p Hc Hp). ring. Qed.
  Lemma op_W_vagree F G : vagree n s F G -> vagree n s (W F) (W G).
  Proof. intros H c p Hc Hp. unfold W. rewrite (T_vagree F G H c p Hc Hp), (H c p Hc Hp). reflexivity. Qed.
  Lemma chi_minus F G : vagree n s (chi_op o (fun c p => F c p - G c p)) (fun c p => chi_op o F c p - chi_op o G c p).
  Proof. intros c p Hc Hp. rewrite !op_chi, W_minus by assumption. ring. Qed.
  Lemma chi_vagree F G : vagree n s F G -> vagree n s (chi_op o F) (chi_op o G).
  Proof. intros H c p Hc Hp. rewrite !op_chi by assumption. rewrite (op_W_vagree F G H c p Hc Hp), (H c p Hc Hp). reflexivity. Qed.
  Lemma green_vagree' F G : vagree n s F G -> vagree n s (green_op o F) (green_op o G).
  Proof. apply (green_vagree o F G Hfine). Qed.
  Lemma green_minus F G : vagree n s (green_op o (fun c p => F c p - G c p)) (fun c p => green_op o F c p - green_op o G c p).
  Proof.
    intros c p Hc Hp. unfold green_op, convolve, vift. fold s. rewrite <- ift_minus. apply ift_ext. intros k Hk.
    transitivity (g_ft_op o (fun c k => vft s F c k - vft s G c k) c k).
    - apply (g_pointwise o n (fine_ndim o Hfine) _ _ k Hk); [|exact Hc]. intros d Hd. unfold vft. apply ft_minus.
    - unfold g_ft_op. destruct (o_vectorial o); [rewrite longitudinal_minus|]; ring.
  Qed.

  Section Step.
    Variable e : vfield.
    Let u := green_op o (chi_op o e).
    Let d : vfield := fun c p => e c p - u c p.

    Lemma correction : vagree n s (chi_op o d) (fun c p => Ci / im (o_alpha o) * (curl_curl_op (o_vectorial o) (o_grid o) u c p - T u c p)).
    Proof.
      intros c p Hc Hp.
      assert (ginv o u c p = chi_op o e c p) as H1 by (apply (ginv_green o (chi_op o e) Hfine c p Hc Hp)).
      rewrite (ginv_real o u Hfine c p Hc Hp) in H1.
      unfold d. rewrite (chi_minus e u c p Hc Hp), <- H1, (Hchi u c p Hc Hp). ring.
    Qed.
    Lemma re_u_chi_d : fst (vip n s u (chi_op o d)) = (snd (vip n s u (T u)) / snd (o_alpha o))%R.
    Proof.
      rewrite (vagree_vip n s u _ u _ (fun c p _ _ => eq_refl) correction).
      rewrite vip_scal_r, vip_minus_r.
      assert (snd (vip n s u (curl_curl_op (o_vectorial o) (o_grid o) u)) = 0%R) as HD.
      { destruct Hfine as (Hg & _ & Hn). apply curl_curl_form; [exact Hg|exact Hn|reflexivity]. }
      generalize dependent (vip n s u (curl_curl_op (o_vectorial o) (o_grid o) u)). generalize (vip n s u (T u)). intros [t1 t2] [d1 d2] HD.
      cbn in HD. subst d2. unfold im.
      replace (Ci / RtoC (snd (o_alpha o))) with (Ci * RtoC (/ snd (o_alpha o))) by (rewrite RtoC_inv by apply op_ai; reflexivity).
      cbn. field. apply op_ai.
    Qed.
    Lemma energy_balance : vnorm2 n s (M e) =
      (vnorm2 n s e - 2 * (snd (vip n s u (T u)) / snd (o_alpha o)) - (vnorm2 n s d - vnorm2 n s (W d)))%R.
    Proof.
      rewrite <- re_u_chi_d.
      assert (vagree n s (M e) (fun c p => e c p - chi_op o d c p)) as HM.
      { intros c p Hc Hp. unfold M, d. fold u. rewrite !chi_minus by assumption. ring. }
      rewrite (vagree_vnorm2 _ _ _ _ HM), vnorm2_minus.
      rewrite (vagree_vip n s e _ (fun c p => u c p + d c p) (chi_op o d)) by (try (intros c p _ _; reflexivity); intros c p _ _; unfold d; ring).
      rewrite vip_plus_l.
      assert (vnorm2 n s (W d) = vnorm2 n s (chi_op o d) + vnorm2 n s d - 2 * fst (vip n s d (chi_op o d)))%R as HW.
      { rewrite (vagree_vnorm2 n s (W d) (fun c p => chi_op o d c p - d c p)) by (intros c p Hc Hp; rewrite op_chi by assumption; ring).
        rewrite vnorm2_minus. rewrite <- (vip_conj n s d (chi_op o d)). reflexivity. }
      rewrite HW. cbn. lra.
    Qed.
  End Step.

  Lemma next_minus E E' : vagree n s (fun c p => next_field o E c p - next_field o E' c p) (M (fun c p => E c p - E' c p)).
  Proof.
    intros c p Hc Hp. unfold next_field, update, M.
    set (A := fun c p => green_op o (fun c p => chi_op o E c p + o_source o c p) c p - E c p).
    set (B := fun c p => green_op o (fun c p => chi_op o E' c p + o_source o c p) c p - E' c p).
    transitivity (E c p - E' c p + chi_op o (fun c p => A c p - B c p) c p); [rewrite (chi_minus _ _ c p Hc Hp); ring|]. f_equal.
    apply chi_vagree; try assumption. intros c' p' Hc' Hp'. unfold A, B.
    transitivity (green_op o (fun c p => (chi_op o E c p + o_source o c p) - (chi_op o E' c p + o_source o c p)) c' p' - (E c' p' - E' c' p')).
    - rewrite (green_minus _ _ c' p' Hc' Hp'). ring.
    - f_equal. apply green_vagree'; try assumption. intros c2 p2 Hc2 Hp2. rewrite chi_minus by assumption. ring.
  Qed.
  Lemma M_vagree F G : vagree n s F G -> vagree n s (M F) (M G).
  Proof.
    intros H c p Hc Hp. unfold M. rewrite (H c p Hc Hp). f_equal. apply chi_vagree; try assumption. intros c' p' Hc' Hp'.
    rewrite (H c' p' Hc' Hp'). f_equal. apply green_vagree'; try assumption. apply chi_vagree. assumption.
  Qed.
  Lemma next_vagree E E' : vagree n s E E' -> vagree n s (next_field o E) (next_field o E').
  Proof.
    intros H c p Hc Hp. unfold next_field, update. rewrite (H c p Hc Hp). f_equal. apply chi_vagree; try assumption.
    intros c' p' Hc' Hp'. rewrite (H c' p' Hc' Hp'). f_equal. apply green_vagree'; try assumption. intros c2 p2 Hc2 Hp2.
    rewrite (chi_vagree _ _ H c2 p2 Hc2 Hp2). reflexivity.
  Qed.
  Lemma update_next E : vagree n s (update o (next_field o E)) (M (update o E)).
  Proof.
    intros c p Hc Hp. transitivity (next_field o (next_field o E) c p - next_field o E c p); [unfold next_field at 2; ring|].
    rewrite (next_minus (next_field o E) E c p Hc Hp). apply M_vagree; try assumption. intros c' p' _ _. unfold next_field. ring.
  Qed.

  Variables (loss rho : R).
  Hypothesis Hloss : forall u, (loss * vnorm2 n s u <= snd (vip n s u (T u)))%R.
  Hypothesis Hloss0 : (0 <= loss)%R.
  Hypothesis Hrho : forall d, (vnorm2 n s (fun c p => T d c p - RtoC (fst (o_alpha o)) * d c p)%C
    <= (rho * snd (o_alpha o)) * (rho * snd (o_alpha o)) * vnorm2 n s d)%R.
  Hypothesis Hrho0 : (0 <= rho)%R.

  Lemma deviation d : (vnorm2 n s (W d) <= rho * rho * vnorm2 n s d)%R.
  Proof.
    unfold W. rewrite vnorm2_scal.
    assert (Cmod (Ci / im (o_alpha o)) = (/ snd (o_alpha o))%R) as ->.
    { unfold im. rewrite Cmod_div by (apply RtoC_neq, op_ai). rewrite Cmod_R, Rabs_pos_eq by lra.
      replace (Cmod Ci) with 1%R; [unfold Rdiv; ring|]. unfold Cmod. cbn. replace (0 * (0 * 1) + 1 * (1 * 1))%R with 1%R by ring. rewrite sqrt_1. reflexivity. }
    apply Rle_trans with (/ snd (o_alpha o) * / snd (o_alpha o) * ((rho * snd (o_alpha o)) * (rho * snd (o_alpha o)) * vnorm2 n s d))%R.
    - apply Rmult_le_compat_l; [|apply Hrho]. pose proof (Rinv_0_lt_compat _ Ha). nra.
    - apply Req_le. field. apply op_ai.
  Qed.
  Lemma energy_drop e : let u := green_op o (chi_op o e) in let d := (fun c p => e c p - u c p)%C in
    (vnorm2 n s (M e) <= vnorm2 n s e - 2 * (loss / snd (o_alpha o)) * vnorm2 n s u - (1 - rho * rho) * vnorm2 n s d)%R.
  Proof.
    intros u d. rewrite energy_balance. fold u d. pose proof (deviation d) as H0. pose proof (Hloss u) as H.
    assert (loss / snd (o_alpha o) * vnorm2 n s u <= snd (vip n s u (T u)) / snd (o_alpha o))%R.
    { unfold Rdiv. rewrite Rmult_assoc, (Rmult_comm (/ _)), <- Rmult_assoc. apply Rmult_le_compat_r; [|exact H].
      left. apply Rinv_0_lt_compat. exact Ha. }
    lra.
  Qed.
  Lemma M_nonincreasing e : (rho <= 1)%R -> (vnorm2 n s (M e) <= vnorm2 n s e)%R.
  Proof.
    intros Hr. pose proof (energy_drop e) as H. cbn zeta in H.
    pose proof (vnorm2_nonneg n s (green_op o (chi_op o e))). pose proof (vnorm2_nonneg n s (fun c p => e c p - green_op o (chi_op o e) c p)).
    assert (0 <= loss / snd (o_alpha o))%R by (apply Rmult_le_pos; [assumption|left; apply Rinv_0_lt_compat; assumption]).
    assert (0 <= 1 - rho * rho)%R by nra. nra.
  Qed.
  Lemma energy_contracts e k : (k <= 2 * (loss / snd (o_alpha o)))%R -> (k <= 1 - rho * rho)%R -> (0 <= k)%R ->
    (vnorm2 n s (M e) <= (1 - k / 2) * vnorm2 n s e)%R.
  Proof.
    intros H1 H2 H3. pose proof (energy_drop e) as H. cbn zeta in H.
    set (u := green_op o (chi_op o e)) in *. set (d := fun c p => (e c p - u c p)%C) in *.
    pose proof (vnorm2_nonneg n s u). pose proof (vnorm2_nonneg n s d).
    assert (vnorm2 n s e <= 2 * vnorm2 n s u + 2 * vnorm2 n s d)%R as He.
    { rewrite (vagree_vnorm2 n s e (fun c p => u c p + d c p)) by (intros c p _ _; unfold d; ring). apply vnorm2_sum_le. }
    nra.
  Qed.

  Lemma corrections_nonincreasing E : (rho <= 1)%R -> (vnorm2 n s (update o (next_field o E)) <= vnorm2 n s (update o E))%R.
  Proof. intros Hr. rewrite (vagree_vnorm2 _ _ _ _ (update_next E)). apply M_nonincreasing. assumption. Qed.
  Lemma distance_nonincreasing E E' : (rho <= 1)%R ->
    (vnorm2 n s (fun c p => next_field o E c p - next_field o E' c p)%C <= vnorm2 n s (fun c p => E c p - E' c p)%C)%R.
  Proof. intros Hr. rewrite (vagree_vnorm2 _ _ _ _ (next_minus E E')). apply M_nonincreasing. assumption. Qed.
  Lemma distance_contracts E E' k : (k <= 2 * (loss / snd (o_alpha o)))%R -> (k <= 1 - rho * rho)%R -> (0 <= k)%R ->
    (vnorm2 n s (fun c p => next_field o E c p - next_field o E' c p)%C <= (1 - k / 2) * vnorm2 n s (fun c p => E c p - E' c p)%C)%R.
  Proof.
    intros H1 H2 H3. rewrite (vagree_vnorm2 _ _ _ _ (next_minus E E')). apply energy_contracts; assumption.
  Qed.
  Lemma chi_le d : (rho <= 1)%R -> (vnorm2 n s (chi_op o d) <= 4 * vnorm2 n s d)%R.
  Proof.
    intros Hr. rewrite (vagree_vnorm2 n s _ _ (op_chi d)).
    eapply Rle_trans; [apply vnorm2_sum_le|]. pose proof (deviation d) as H. pose proof (vnorm2_nonneg n s d). assert (rho * rho <= 1)%R by nra.
    assert (rho * rho * vnorm2 n s d <= 1 * vnorm2 n s d)%R by (apply Rmult_le_compat_r; assumption). lra.
  Qed.
  (** A susceptibility operator with deviation below one is injective. *)
  Lemma chi_injective : (rho < 1)%R -> operator_injective n s (chi_op o).
  Proof.
    intros Hr d Hd. apply vnorm2_zero.
    assert (vnorm2 n s (W d) = vnorm2 n s d) as HW.
    { rewrite (vagree_vnorm2 n s (W d) (fun c p => - (1) * d c p)).
      - rewrite vnorm2_scal, Cmod_opp, Cmod_1. ring.
      - intros c p Hc Hp. specialize (Hd c p Hc Hp). rewrite (op_chi d c p Hc Hp) in Hd.
        transitivity (d c p + W d c p - d c p); [ring|]. rewrite Hd. ring. }
    pose proof (deviation d) as H. rewrite HW in H. pose proof (vnorm2_nonneg n s d) as H0. assert (rho * rho < 1)%R as H1 by nra.
    apply Rle_antisym; [|exact H0]. nra.
  Qed.
  Lemma M_drop_update F : (rho < 1)%R ->
    ((1 - rho * rho) / 4 * vnorm2 n s (fun c p => M F c p - F c p)%C <= vnorm2 n s F - vnorm2 n s (M F))%R.
  Proof.
    intros Hr. pose proof (energy_drop F) as H. cbn zeta in H.
    set (d := fun c p => (F c p - green_op o (chi_op o F) c p)%C) in H.
    assert (vagree n s (fun c p => M F c p - F c p) (chi_op o (fun c p => green_op o (chi_op o F) c p - F c p))) as HM by (intros c p _ _; unfold M; ring).
    rewrite (vagree_vnorm2 _ _ _ _ HM).
    assert (vnorm2 n s (fun c p => green_op o (chi_op o F) c p - F c p)%C = vnorm2 n s d) as Hd.
    { rewrite (vagree_vnorm2 n s (fun c p => green_op o (chi_op o F) c p - F c p) (fun c p => - (1) * d c p)) by (intros c p _ _; unfold d; ring).
      rewrite vnorm2_scal, Cmod_opp, Cmod_1. ring. }
    pose proof (chi_le (fun c p => (green_op o (chi_op o F) c p - F c p)%C) ltac:(lra)) as H2. rewrite Hd in H2.
    pose proof (vnorm2_nonneg n s (green_op o (chi_op o F))).
    assert (0 <= loss / snd (o_alpha o))%R by (apply Rmult_le_pos; [assumption|left; apply Rinv_0_lt_compat; assumption]).
    assert (0 < 1 - rho * rho)%R by nra.
    set (X := vnorm2 n s (chi_op o (fun c p => green_op o (chi_op o F) c p - F c p))) in *.
    assert ((1 - rho * rho) / 4 * X <= (1 - rho * rho) / 4 * (4 * vnorm2 n s d))%R by (apply Rmult_le_compat_l; lra).
    assert (0 <= 2 * (loss / snd (o_alpha o)) * vnorm2 n s (green_op o (chi_op o F)))%R by (apply Rmult_le_pos; lra).
    lra.
  Qed.

  Let iterate (k : nat) (E : vfield) : vfield := Nat.iter k (next_field o) E.

  Lemma updates_nonincreasing E k : (rho <= 1)%R -> (vnorm2 n s (update o (iterate (Datatypes.S k) E)) <= vnorm2 n s (update o (iterate k E)))%R.
  Proof. intros Hr. apply corrections_nonincreasing. assumption. Qed.

  Lemma fixed_next Es : vagree n s (update o Es) (fun _ _ => 0) -> vagree n s (next_field o Es) Es.
  Proof. intros H c p Hc Hp. unfold next_field. rewrite (H c p Hc Hp). ring. Qed.

  Lemma step_drop E Es : (rho < 1)%R -> vagree n s (update o Es) (fun _ _ => 0) ->
    ((1 - rho * rho) / 4 * vnorm2 n s (update o E) <=
     vnorm2 n s (fun c p => E c p - Es c p)%C - vnorm2 n s (fun c p => next_field o E c p - Es c p)%C)%R.
  Proof.
    intros Hr Hs. set (F := fun c p => (E c p - Es c p)%C). pose proof (M_drop_update F Hr) as H.
    assert (vagree n s (fun c p => next_field o E c p - Es c p) (M F)) as H1.
    { intros c p Hc Hp. rewrite <- (fixed_next Es Hs c p Hc Hp) at 1. apply (next_minus E Es c p Hc Hp). }
    rewrite (vagree_vnorm2 _ _ _ _ H1).
    replace (vnorm2 n s (update o E)) with (vnorm2 n s (fun c p => M F c p - F c p)%C); [exact H|]. apply vagree_vnorm2.
    intros c p Hc Hp. rewrite <- (H1 c p Hc Hp). unfold F, next_field. ring.
  Qed.

  Lemma updates_sum E Es k : (rho < 1)%R -> vagree n s (update o Es) (fun _ _ => 0) ->
    ((1 - rho * rho) / 4 * rsum k (fun j => vnorm2 n s (update o (iterate j E))) <=
     vnorm2 n s (fun c p => E c p - Es c p)%C - vnorm2 n s (fun c p => iterate k E c p - Es c p)%C)%R.
  Proof.
    intros Hr Hs. induction k as [|k IH]; cbn [rsum].
    - cbn [iterate Nat.iter nat_rect]. lra.
    - pose proof (step_drop (iterate k E) Es Hr Hs) as H. change (next_field o (iterate k E)) with (iterate (Datatypes.S k) E) in H. lra.
  Qed.

  Lemma updates_rate E Es k : (rho < 1)%R -> vagree n s (update o Es) (fun _ _ => 0) ->
    (INR (Datatypes.S k) * vnorm2 n s (update o (iterate k E)) <= 4 / (1 - rho * rho) * vnorm2 n s (fun c p => E c p - Es c p)%C)%R.
  Proof.
    intros Hr Hs. pose proof (updates_sum E Es (Datatypes.S k) Hr Hs) as H.
    pose proof (vnorm2_nonneg n s (fun c p => iterate (Datatypes.S k) E c p - Es c p)%C).
    assert (INR (Datatypes.S k) * vnorm2 n s (update o (iterate k E)) <= rsum (Datatypes.S k) (fun j => vnorm2 n s (update o (iterate j E))))%R as H1.
    { rewrite <- (Rmult_1_r (vnorm2 _ _ _)).
      assert (forall m, (m <= k)%nat -> (vnorm2 n s (update o (iterate k E)) <= vnorm2 n s (update o (iterate m E)))%R) as Hm.
      { intros m Hm. induction Hm as [|k Hm IH]; [lra|]. eapply Rle_trans; [apply updates_nonincreasing; lra|]. apply IH; try assumption.
        - pose proof (updates_sum E Es (Datatypes.S k) Hr Hs). assumption.
        - apply vnorm2_nonneg. }
      clear -Hm. assert (forall j, (j <= Datatypes.S k)%nat ->
        (INR j * (vnorm2 n s (update o (iterate k E)) * 1) <= rsum j (fun j => vnorm2 n s (update o (iterate j E))))%R) as Hj.
      { induction j as [|j IH]; intros Hj; [cbn; lra|]. rewrite S_INR. cbn [rsum]. pose proof (Hm j ltac:(lia)). pose proof (IH ltac:(lia)). lra. }
      apply Hj. lia. }
    assert (0 < 1 - rho * rho)%R as Hp by nra.
    apply Rle_trans with (4 / (1 - rho * rho) * ((1 - rho * rho) / 4 * rsum (Datatypes.S k) (fun j => vnorm2 n s (update o (iterate j E)))))%R.
    - replace (4 / (1 - rho * rho) * ((1 - rho * rho) / 4 * rsum (Datatypes.S k) (fun j => vnorm2 n s (update o (iterate j E)))))%R
        with (rsum (Datatypes.S k) (fun j => vnorm2 n s (update o (iterate j E))))%R by (field; lra). exact H1.
    - apply Rmult_le_compat_l; [|lra]. apply Rmult_le_pos; [lra|]. left. apply Rinv_0_lt_compat. exact Hp.
  Qed.

  (** *** With loss the iteration has a limit, the only solution *)
  Section Lossy.
    Variable k : R.
    Hypothesis Hk1 : (k <= 2 * (loss / snd (o_alpha o)))%R.
    Hypothesis Hk2 : (k <= 1 - rho * rho)%R.
    Hypothesis Hk0 : (0 < k)%R.
    Let q := (1 - k / 2)%R.

    Lemma q_range : (/ 2 <= q < 1)%R.
    Proof. unfold q. assert (k <= 1)%R by nra. lra. Qed.

    Lemma fixed_unique E1 E2 : vagree n s (update o E1) (fun _ _ => 0) -> vagree n s (update o E2) (fun _ _ => 0) -> vagree n s E1 E2.
    Proof.
      intros H1 H2. pose proof (distance_contracts E1 E2 k Hk1 Hk2 ltac:(lra)) as H. fold q in H.
      rewrite (vagree_vnorm2 n s _ (fun c p => E1 c p - E2 c p)) in H.
      - pose proof (vnorm2_nonneg n s (fun c p => E1 c p - E2 c p)%C) as Hnn. pose proof q_range as Hq.
        assert (vnorm2 n s (fun c p => E1 c p - E2 c p)%C = 0%R) as H0 by nra.
        apply vnorm2_zero in H0. intros c p Hc Hp. specialize (H0 c p Hc Hp). cbn beta in H0.
        transitivity (E1 c p - E2 c p + E2 c p); [ring|]. rewrite H0. ring.
      - intros c p Hc Hp. rewrite (fixed_next _ H1 c p Hc Hp), (fixed_next _ H2 c p Hc Hp). reflexivity.
    Qed.

    Lemma error_geometric E Es m : vagree n s (update o Es) (fun _ _ => 0) ->
      (vnorm2 n s (fun c p => iterate m E c p - Es c p)%C <= q ^ m * vnorm2 n s (fun c p => E c p - Es c p)%C)%R.
    Proof.
      intros Hs. induction m as [|m IH]; [cbn [pow iterate Nat.iter nat_rect]; lra|].
      rewrite (vagree_vnorm2 n s _ (fun c p => next_field o (iterate m E) c p - next_field o Es c p)).
      - eapply Rle_trans; [apply (distance_contracts _ _ k); lra|]. fold q. cbn [pow]. rewrite Rmult_assoc. apply Rmult_le_compat_l; [|exact IH].
        pose proof q_range. lra.
      - intros c p Hc Hp. rewrite (fixed_next _ Hs c p Hc Hp). reflexivity.
    Qed.

    Lemma update_geometric E m : (vnorm2 n s (update o (iterate m E)) <= q ^ m * vnorm2 n s (update o E))%R.
    Proof.
      induction m as [|m IH]; [cbn [pow iterate Nat.iter nat_rect]; lra|].
      assert (vnorm2 n s (update o (iterate (Datatypes.S m) E)) <= q * vnorm2 n s (update o (iterate m E)))%R as H.
      { change (iterate (Datatypes.S m) E) with (next_field o (iterate m E)). rewrite (vagree_vnorm2 _ _ _ _ (update_next (iterate m E))).
        apply energy_contracts; lra. }
      cbn [pow]. rewrite Rmult_assoc. eapply Rle_trans; [exact H|]. apply Rmult_le_compat_l; [|exact IH]. pose proof q_range. lra.
    Qed.

    Lemma pow_sqrt m : sqrt (q ^ m) = (sqrt q ^ m)%R.
    Proof.
      pose proof q_range. induction m as [|m IH]; cbn [pow]; [apply sqrt_1|]. rewrite sqrt_mult, IH; [reflexivity|lra|]. apply pow_le. lra.
    Qed.
    Lemma update_point E m c p : (c < n)%nat -> inside s p ->
      (Cmod (update o (iterate m E) c p) <= sqrt (vnorm2 n s (update o E)) * sqrt q ^ m)%R.
    Proof.
      intros Hc Hp. rewrite <- pow_sqrt, <- sqrt_mult.
      - rewrite <- (sqrt_Rsqr (Cmod (update o (iterate m E) c p))) by apply Cmod_ge_0. apply sqrt_le_1_alt. unfold Rsqr.
        eapply Rle_trans; [apply (point_le_vnorm2 n s (update o (iterate m E)) c p Hc Hp)|]. rewrite Rmult_comm. apply update_geometric.
      - apply vnorm2_nonneg.
      - apply pow_le. pose proof q_range. lra.
    Qed.

    Variable E0 : vfield.
    Let a (pr : C -> R) c p (m : nat) := pr (update o (iterate m E0) c p).
    Lemma summable (pr : C -> R) c p : (forall z, (Rabs (pr z) <= Cmod z)%R) -> (c < n)%nat -> inside s p -> ex_series (a pr c p).
    Proof.
      intros Hpr Hc Hp. apply (ex_series_le (K := R_AbsRing) (V := R_CompleteNormedModule) _ (fun m => scal (sqrt (vnorm2 n s (update o E0))) (sqrt q ^ m)%R)).
      - intros m. eapply Rle_trans; [apply Hpr|]. apply update_point; assumption.
      - apply (ex_series_scal (K := R_AbsRing) (V := R_NormedModule)). apply ex_series_geom. rewrite Rabs_pos_eq by apply sqrt_pos.
        pose proof q_range. rewrite <- sqrt_1. apply sqrt_lt_1_alt. lra.
    Qed.
    Definition limit : vfield := fun c p => E0 c p + ((Series (a fst c p), Series (a snd c p)) : C).

    Lemma iterate_sum (pr : C -> R) c p m : (forall x y, pr (x + y) = (pr x + pr y)%R) ->
      pr (iterate (Datatypes.S m) E0 c p) = (pr (E0 c p) + sum_n (a pr c p) m)%R.
    Proof.
      intros Hpr. induction m as [|m IH].
      - rewrite sum_O. cbn [iterate Nat.iter nat_rect]. unfold next_field. rewrite Hpr. reflexivity.
      - rewrite sum_Sn. change (iterate (Datatypes.S (Datatypes.S m)) E0) with (next_field o (iterate (Datatypes.S m) E0)).
        unfold next_field at 1. rewrite Hpr, IH.
        change (plus (sum_n (a pr c p) m) (a pr c p (Datatypes.S m))) with (sum_n (a pr c p) m + a pr c p (Datatypes.S m))%R.
        rewrite <- Rplus_assoc. reflexivity.
    Qed.
    Lemma point_limit (pr : C -> R) c p l : (forall x y, pr (x + y) = (pr x + pr y)%R) -> (forall z, (Rabs (pr z) <= Cmod z)%R) ->
      (c < n)%nat -> inside s p -> l = (pr (E0 c p) + Series (a pr c p))%R -> is_lim_seq (fun m => pr (iterate m E0 c p)) l.
    Proof.
      intros Hadd Hle Hc Hp ->. apply is_lim_seq_incr_1.
      apply is_lim_seq_ext with (fun m => pr (E0 c p) + sum_n (a pr c p) m)%R; [intros m; symmetry; apply iterate_sum; assumption|].
      apply is_lim_seq_plus'; [apply is_lim_seq_const|]. apply (Series_correct _ (summable pr c p Hle Hc Hp)).
    Qed.
    Lemma fst_plus (x y : C) : fst (x + y) = (fst x + fst y)%R.
    Proof. reflexivity. Qed.
    Lemma snd_plus (x y : C) : snd (x + y) = (snd x + snd y)%R.
    Proof. reflexivity. Qed.

    Lemma limit_point c p : (c < n)%nat -> inside s p ->
      is_lim_seq (fun m => fst (iterate m E0 c p)) (fst (limit c p)) /\ is_lim_seq (fun m => snd (iterate m E0 c p)) (snd (limit c p)).
    Proof.
      intros Hc Hp. split; apply point_limit; try assumption; try reflexivity; try apply fst_plus; try apply snd_plus; intros z; [apply Cmod_Re_le|apply Cmod_Im_le].
    Qed.
    Lemma limit_vnorm2 : is_lim_seq (fun m => vnorm2 n s (fun c p => iterate m E0 c p - limit c p)%C) 0%R.
    Proof.
      assert (is_lim_seq (fun m => rsum_over s (fun p => rsum n (fun c => (Cmod (iterate m E0 c p - limit c p)%C * Cmod (iterate m E0 c p - limit c p)%C)%R)))
                (rsum_over s (fun p => rsum n (fun _ => 0%R)))) as H.
      { apply (rsum_over_lim s (fun m p => rsum n (fun c => (Cmod (iterate m E0 c p - limit c p)%C * Cmod (iterate m E0 c p - limit c p)%C)%R)) (fun p => rsum n (fun _ => 0%R))).
        intros p Hp. apply (rsum_lim n (fun m c => (Cmod (iterate m E0 c p - limit c p)%C * Cmod (iterate m E0 c p - limit c p)%C)%R) (fun _ => 0%R)).
        intros c Hc. destruct (limit_point c p Hc Hp) as [H1 H2].
        apply is_lim_seq_ext with (fun m => ((fst (iterate m E0 c p) - fst (limit c p)) * (fst (iterate m E0 c p) - fst (limit c p))
          + (snd (iterate m E0 c p) - snd (limit c p)) * (snd (iterate m E0 c p) - snd (limit c p)))%R).
        - intros m. rewrite Cmod_sq. cbn. ring.
        - set (a1 := fst (limit c p)) in *. set (a2 := snd (limit c p)) in *.
          replace (Finite 0) with (Finite ((a1 - a1) * (a1 - a1) + (a2 - a2) * (a2 - a2))%R) by (f_equal; ring).
          apply is_lim_seq_plus'; apply is_lim_seq_mult'; apply is_lim_seq_minus'; try assumption; apply is_lim_seq_const. }
      assert (forall m, rsum m (fun _ => 0%R) = 0%R) as Hz by (induction m as [|m IH]; cbn; rewrite ?IH; ring).
      replace (rsum_over s (fun p => rsum n (fun _ => 0%R))) with 0%R in H.
      - apply is_lim_seq_ext with (2 := H). intros m. rewrite vnorm2_points. reflexivity.
      - rewrite (rsum_over_ext _ _ (fun _ => 0%R)) by (intros; apply Hz). symmetry. apply rsum_over_zero.
    Qed.

    Lemma limit_fixed : vagree n s (update o limit) (fun _ _ => 0).
    Proof.
      assert (rho <= 1)%R as Hr by nra.
      apply vnorm2_zero. apply Rle_antisym; [|apply vnorm2_nonneg].
      assert (is_lim_seq (fun m => 2 * vnorm2 n s (fun c p => iterate m E0 c p - limit c p)%C + 2 * vnorm2 n s (fun c p => iterate (Datatypes.S m) E0 c p - limit c p)%C)%R 0%R) as HL.
      { replace (Finite 0) with (Finite (2 * 0 + 2 * 0)%R) by (f_equal; ring).
        apply is_lim_seq_plus'; (apply is_lim_seq_mult'; [apply is_lim_seq_const|]).
        - exact limit_vnorm2.
        - apply (is_lim_seq_incr_1 (fun m => vnorm2 n s (fun c p => iterate m E0 c p - limit c p)%C)). exact limit_vnorm2. }
      apply (is_lim_seq_le (fun _ => vnorm2 n s (update o limit)) _ (Finite (vnorm2 n s (update o limit))) (Finite 0)) in HL; [exact HL| |apply is_lim_seq_const].
      intros m. cbn beta.
      rewrite (vagree_vnorm2 n s (update o limit) (fun c p => (next_field o limit c p - next_field o (iterate m E0) c p) + (iterate (Datatypes.S m) E0 c p - limit c p))).
      - eapply Rle_trans; [apply vnorm2_sum_le|]. apply Rplus_le_compat_r. apply Rmult_le_compat_l; [lra|].
        eapply Rle_trans; [apply distance_nonincreasing; assumption|]. apply Req_le.
        rewrite (vagree_vnorm2 n s (fun c p => limit c p - iterate m E0 c p) (fun c p => - (1) * (iterate m E0 c p - limit c p))) by (intros c p _ _; ring).
        rewrite vnorm2_scal, Cmod_opp, Cmod_1. ring.
      - intros c p _ _. change (iterate (Datatypes.S m) E0) with (next_field o (iterate m E0)). unfold next_field at 1. ring.
    Qed.
  End Lossy.
End Operator.
