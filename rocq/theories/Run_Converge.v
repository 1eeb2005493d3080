(** Proofs about solve for media without gain: it ends, without an exception, and with loss the error is bounded by
    the tolerance. *)
From Coq Require Import Reals Lra Lia List Arith ZArith Bool.
Require Import Verif.Base Verif.Cplx Verif.CSum Verif.Field Verif.Fourier_Model Verif.Fourier_Spec Verif.Fourier_Proofs.
Require Import Verif.Vec_Model Verif.Vec_Spec Verif.Vec_Proofs Verif.Solver_Model Verif.Solver_Spec Verif.Solver_Proofs Verif.Solver_Convergence Verif.Solver_Limit Verif.Solver_Choice.
Require Import Verif.Derived_Model Verif.Derived_Spec Verif.Run_Model Verif.Run_Spec Verif.Run_Proofs Verif.Run_Solve Verif.Run_Zero.
Import ListNotations.
Local Open Scope R_scope.
Local Open Scope C_scope.

Lemma INR_above x : exists m, (x < INR m)%R.
Proof.
  destruct (archimed x) as (H & _). exists (Z.to_nat (up x)). rewrite INR_IZR_INZ. destruct (Z.le_gt_cases 0 (up x)) as [H0|H0].
  - rewrite Z2Nat.id by exact H0. lra.
  - replace (Z.to_nat (up x)) with 0%nat by lia. cbn. apply IZR_lt in H0. lra.
Qed.
Lemma vnorm2_weighted n s (F G : vfield) t : (0 < t)%R ->
  (vnorm2 n s (fun c p => F c p + G c p)%C <= (1 + t) * vnorm2 n s F + (1 + / t) * vnorm2 n s G)%R.
Proof.
  intros Ht. pose proof (vnorm2_nonneg n s (fun c p => RtoC t * F c p - G c p)) as H.
  rewrite vnorm2_minus in H. rewrite vnorm2_scal, Cmod_R, Rabs_pos_eq in H by lra.
  rewrite (vagree_vnorm2 n s (fun c p => F c p + G c p) (fun c p => F c p - - (1) * G c p)) by (intros c p _ _; ring).
  rewrite vnorm2_minus, vnorm2_scal, vip_scal_r.
  assert (vip n s (fun c p => RtoC t * F c p) G = RtoC t * vip n s F G) as E.
  { rewrite <- (vip_conj n s G (fun c p => RtoC t * F c p)), vip_scal_r, Cconj_mult, vip_conj, Cconj_R. reflexivity. }
  rewrite E in H. rewrite Cmod_opp, Cmod_1.
  assert (fst (RtoC t * vip n s F G)%C = t * fst (vip n s F G))%R as E1 by (cbn; ring). rewrite E1 in H.
  assert (fst (- (1) * vip n s F G)%C = - fst (vip n s F G))%R as -> by (cbn; ring).
  set (a := vnorm2 n s F) in *. set (b := vnorm2 n s G) in *. set (x := fst (vip n s F G)) in *.
  assert (2 * x <= t * a + / t * b)%R; [|lra].
  apply Rmult_le_reg_l with t; [exact Ht|]. rewrite Rmult_plus_distr_l, <- (Rmult_assoc t (/ t)), Rinv_r by lra. lra.
Qed.

(** ** One preconditioner *)
Section Descent.
  Variable o : ops.
  Let n := vector_length o.
  Let s := rshape (o_grid o).
  Variable M : vfield -> vfield.
  Hypothesis M_v : forall F G, vagree n s F G -> vagree n s (M F) (M G).
  Hypothesis N_v : forall F G, vagree n s F G -> vagree n s (next_field o F) (next_field o G).
  Hypothesis N_minus : forall E E', vagree n s (fun c p => next_field o E c p - next_field o E' c p) (M (fun c p => E c p - E' c p)).
  Hypothesis M_le : forall e, (vnorm2 n s (M e) <= vnorm2 n s e)%R.
  Variable kappa : R.
  Hypothesis Hkappa : (0 < kappa)%R.
  Hypothesis M_drop : forall F, (kappa * vnorm2 n s (fun c p => M F c p - F c p)%C <= vnorm2 n s F - vnorm2 n s (M F))%R.
  Variable start : vfield.
  Let X (m : nat) : vfield := Nat.iter m (next_field o) start.
  Let U (m : nat) : vfield := update o (X m).
  Variable K : R.
  Hypothesis rate : forall m, (INR (Datatypes.S m) * vnorm2 n s (U m) <= K)%R.

  Lemma de_update F G : vagree n s F G -> vagree n s (update o F) (update o G).
  Proof.
    intros H c p Hc Hp. transitivity (next_field o F c p - F c p); [unfold next_field; ring|].
    rewrite (N_v F G H c p Hc Hp), (H c p Hc Hp). unfold next_field. ring.
  Qed.
  Lemma de_succ m : vagree n s (U (Datatypes.S m)) (M (U m)).
  Proof.
    intros c p Hc Hp. unfold U. change (X (Datatypes.S m)) with (next_field o (X m)).
    assert (forall Y, update o Y c p = next_field o Y c p - Y c p) as EY by (intros Y; unfold next_field; ring). rewrite EY.
    rewrite (N_minus _ _ c p Hc Hp). apply M_v; [|exact Hc|exact Hp]. intros c' p' _ _. generalize (X m). intros Y. unfold next_field. ring.
  Qed.
  Lemma de_le m : (vnorm2 n s (U (Datatypes.S m)) <= vnorm2 n s (U m))%R.
  Proof. rewrite (vagree_vnorm2 _ _ _ _ (de_succ m)). apply M_le. Qed.
  Lemma de_lt m : (vnorm2 n s (U m) <> 0 -> vnorm2 n s (U (Datatypes.S m)) < vnorm2 n s (U m))%R.
  Proof.
    intros H. destruct (Rle_lt_or_eq_dec _ _ (de_le m)) as [|E]; [assumption|]. exfalso.
    assert (vagree n s (M (U m)) (U m)) as HM.
    { pose proof (M_drop (U m)) as HD. rewrite <- (vagree_vnorm2 _ _ _ _ (de_succ m)), E in HD.
      pose proof (vnorm2_nonneg n s (fun c p => M (U m) c p - U m c p)%C) as H0.
      assert (vnorm2 n s (fun c p => M (U m) c p - U m c p)%C = 0%R) as Hz by nra. apply vnorm2_zero in Hz.
      intros c p Hc Hp. specialize (Hz c p Hc Hp). cbn beta in Hz. transitivity (M (U m) c p - U m c p + U m c p); [ring|]. rewrite Hz. ring. }
    assert (forall j, vagree n s (U (j + m)) (U m)) as HU.
    { induction j as [|j IH]; [intros c p _ _; reflexivity|]. change (Datatypes.S j + m)%nat with (Datatypes.S (j + m)).
      eapply vagree_trans; [apply de_succ|]. eapply vagree_trans; [apply M_v, IH|]. exact HM. }
    pose proof (vnorm2_nonneg n s (U m)) as H0.
    destruct (INR_above (K / vnorm2 n s (U m))) as (N & HN).
    pose proof (rate (N + m)) as HR. rewrite (vagree_vnorm2 _ _ _ _ (HU N)) in HR.
    assert (K < INR N * vnorm2 n s (U m))%R.
    { apply Rmult_lt_reg_r with (/ vnorm2 n s (U m))%R; [apply Rinv_0_lt_compat; lra|]. rewrite Rmult_assoc, Rinv_r by lra. unfold Rdiv in HN. lra. }
    assert (INR N <= INR (Datatypes.S (N + m)))%R by (apply le_INR; lia).
    assert (INR N * vnorm2 n s (U m) <= INR (Datatypes.S (N + m)) * vnorm2 n s (U m))%R by (apply Rmult_le_compat_r; assumption). lra.
  Qed.
  Lemma de_le0 m : (vnorm2 n s (U m) <= vnorm2 n s (U 0))%R.
  Proof. induction m as [|m IH]; [lra|]. eapply Rle_trans; [apply de_le|exact IH]. Qed.
  Lemma de_lt0 m : (vnorm2 n s (U 0) <> 0 -> vnorm2 n s (U (Datatypes.S m)) < vnorm2 n s (U 0))%R.
  Proof.
    intros H0. destruct (Req_EM_T (vnorm2 n s (U m)) 0) as [E|E].
    - pose proof (de_le m). pose proof (vnorm2_nonneg n s (U 0)). lra.
    - pose proof (de_lt m E). pose proof (de_le0 m). lra.
  Qed.
  (** The field never returns to zero. *)
  Lemma de_nonzero m : start = none -> (vnorm2 n s (U m) <> 0 -> vnorm2 n s (X (Datatypes.S m)) <> 0)%R.
  Proof.
    intros Hs H E. apply vnorm2_zero in E.
    assert (vnorm2 n s (U (Datatypes.S m)) = vnorm2 n s (U 0)) as E2 by (apply vagree_vnorm2, de_update; change (X 0) with start; rewrite Hs; exact E).
    assert (vnorm2 n s (U 0) <> 0)%R as H0.
    { intros H0. pose proof (de_le0 m). pose proof (vnorm2_nonneg n s (U m)). lra. }
    pose proof (de_lt0 m H0). lra.
  Qed.
  (** Nor does it if the initial field is at least as close to the solution as zero is. *)
  Lemma de_distance Es m : vagree n s (update o Es) none -> (vnorm2 n s (fun c p => X m c p - Es c p)%C <= vnorm2 n s (fun c p => start c p - Es c p)%C)%R /\
    (vnorm2 n s (U m) <> 0 -> vnorm2 n s (fun c p => X (Datatypes.S m) c p - Es c p)%C < vnorm2 n s (fun c p => start c p - Es c p)%C)%R.
  Proof.
    intros HE.
    assert (forall Y, vagree n s (fun c p => next_field o Y c p - Es c p) (M (fun c p => Y c p - Es c p))) as HN.
    { intros Y c p Hc Hp. rewrite <- (N_minus Y Es c p Hc Hp). assert (next_field o Es c p = Es c p) as -> by (unfold next_field; rewrite (HE c p Hc Hp); unfold none; ring). reflexivity. }
    assert (forall j, (vnorm2 n s (fun c p => X (Datatypes.S j) c p - Es c p)%C <= vnorm2 n s (fun c p => X j c p - Es c p)%C)%R) as HL.
    { intros j. change (X (Datatypes.S j)) with (next_field o (X j)). rewrite (vagree_vnorm2 _ _ _ _ (HN (X j))). apply M_le. }
    assert (vnorm2 n s (fun c p => X m c p - Es c p)%C <= vnorm2 n s (fun c p => start c p - Es c p)%C)%R as H1.
    { induction m as [|m IH]; [apply Rle_refl|]. eapply Rle_trans; [apply HL|exact IH]. }
    split; [exact H1|]. intros HU. eapply Rlt_le_trans; [|exact H1].
    change (X (Datatypes.S m)) with (next_field o (X m)). rewrite (vagree_vnorm2 _ _ _ _ (HN (X m))).
    pose proof (M_drop (fun c p => X m c p - Es c p)) as HD.
    assert (vnorm2 n s (fun c p => M (fun c p => X m c p - Es c p) c p - (X m c p - Es c p))%C = vnorm2 n s (U m)) as E.
    { apply vagree_vnorm2. intros c p Hc Hp. rewrite <- (HN (X m) c p Hc Hp). change (U m) with (update o (X m)). unfold next_field. ring. }
    cbv beta in HD. rewrite E in HD. pose proof (vnorm2_nonneg n s (U m)). assert (0 < vnorm2 n s (U m))%R by lra. nra.
  Qed.
  Lemma de_closer Es m : vagree n s (update o Es) none -> (vnorm2 n s (fun c p => start c p - Es c p)%C <= vnorm2 n s Es)%R ->
    (vnorm2 n s (U m) <> 0 -> vnorm2 n s (X (Datatypes.S m)) <> 0)%R.
  Proof.
    intros HE Hs HU E. apply vnorm2_zero in E. pose proof (proj2 (de_distance Es m HE) HU) as H.
    rewrite (vagree_vnorm2 n s (fun c p => X (Datatypes.S m) c p - Es c p)%C (fun c p => - (1) * Es c p)%C) in H.
    - rewrite vnorm2_scal, Cmod_opp, Cmod_1 in H. lra.
    - intros c p Hc Hp. rewrite (E c p Hc Hp). ring.
  Qed.
  (** Nor does it become small while the updates do. *)
  Lemma de_field m : (vnorm2 n s (update o none) <= 6 * vnorm2 n s (X m) + 4 * vnorm2 n s (U m))%R.
  Proof.
    assert (vagree n s (update o none) (fun c p => (X m c p + U m c p) + - (1) * M (X m) c p)) as H.
    { intros c p Hc Hp.
      assert (M (X m) c p = next_field o (X m) c p - next_field o none c p) as ->.
      { rewrite (N_minus (X m) none c p Hc Hp). apply M_v; [|exact Hc|exact Hp]. intros c' p' _ _. unfold none. ring. }
      change (U m) with (update o (X m)). generalize (X m). intros Y. unfold next_field. change (none c p) with (RtoC 0). ring. }
    rewrite (vagree_vnorm2 _ _ _ _ H).
    eapply Rle_trans; [apply vnorm2_sum_le|]. rewrite vnorm2_scal, Cmod_opp, Cmod_1.
    pose proof (vnorm2_sum_le n s (X m) (U m)). pose proof (M_le (X m)). lra.
  Qed.
  (** At some point the residue is below the tolerance. *)
  Lemma de_small rtol : (start = none \/ vnorm2 n s (update o none) <> 0%R) -> (0 < rtol)%R -> exists m, (vnorm2 n s (U m) <= rtol * rtol * vnorm2 n s (X (Datatypes.S m)))%R.
  Proof.
    intros Hs Hr. pose proof (vnorm2_nonneg n s (update o none)) as H0. destruct (Rle_lt_or_eq_dec _ _ H0) as [Hp|Hz].
    - set (eta := (vnorm2 n s (update o none) / (8 + 12 / (rtol * rtol)))%R).
      assert (0 < 12 / (rtol * rtol))%R as Hq by (apply Rdiv_lt_0_compat; nra).
      assert (0 < eta)%R as He by (apply Rdiv_lt_0_compat; lra).
      assert (eta * (8 + 12 / (rtol * rtol)) = vnorm2 n s (update o none))%R as Heq by (unfold eta; field_simplify; [field|]; split; nra).
      destruct (INR_above (K / eta)) as (m & Hm).
      assert (forall j, (m <= j)%nat -> (vnorm2 n s (U j) <= eta)%R) as HU.
      { intros j Hj. pose proof (rate j) as HR. apply Rnot_lt_le. intros Hlt.
        assert (INR m <= INR (Datatypes.S j))%R as H1 by (apply le_INR; lia).
        assert (K < INR m * eta)%R as H2.
        { apply Rmult_lt_reg_r with (/ eta)%R; [apply Rinv_0_lt_compat; lra|]. rewrite Rmult_assoc, Rinv_r by lra. unfold Rdiv in Hm. lra. }
        assert (0 <= INR m)%R by apply pos_INR.
        assert (INR m * eta <= INR (Datatypes.S j) * vnorm2 n s (U j))%R by (apply Rmult_le_compat; lra). lra. }
      exists m. pose proof (HU m ltac:(lia)) as H1. pose proof (HU (Datatypes.S m) ltac:(lia)) as H2. pose proof (de_field (Datatypes.S m)) as H3.
      assert (12 / (rtol * rtol) * eta <= 6 * vnorm2 n s (X (Datatypes.S m)))%R as H4 by nra.
      assert (12 * eta <= rtol * rtol * (6 * vnorm2 n s (X (Datatypes.S m))))%R as H5.
      { replace (12 * eta)%R with (rtol * rtol * (12 / (rtol * rtol) * eta))%R by (field; lra). apply Rmult_le_compat_l; [nra|exact H4]. }
      lra.
    - destruct Hs as [Hs|Hs]; [|exfalso; apply Hs; symmetry; exact Hz]. exists 0%nat. change (U 0) with (update o start). rewrite Hs at 1. rewrite <- Hz. apply Rmult_le_pos; [nra|apply vnorm2_nonneg].
  Qed.

  (** ** The run *)
  Definition reached (k0 : R) (m : nat) (x : solution) : Prop :=
    wavenumber x = k0 /\ operators x = o /\ field x = X (Datatypes.S m) /\ prev_norm x = Fin (norm o (U m)) /\ iteration x = Z.of_nat (Datatypes.S m).
  Lemma norm_sq F : (norm o F * norm o F = vnorm2 n s F)%R.
  Proof. apply sqrt_sqrt, vnorm2_nonneg. Qed.
  Lemma norm_lt F G : (vnorm2 n s F < vnorm2 n s G -> norm o F < norm o G)%R.
  Proof. intros H. apply sqrt_lt_1; [apply vnorm2_nonneg|apply vnorm2_nonneg|exact H]. Qed.
  Lemma norm_0 F : (norm o F = 0 <-> vnorm2 n s F = 0)%R.
  Proof. pose proof (norm_sq F). pose proof (norm_nonneg o F). split; intros; [nra|]. unfold norm. fold n s. rewrite H1. apply sqrt_0. Qed.

  Lemma reached_first k0 x0 : wavenumber x0 = k0 -> operators x0 = o -> field x0 = start -> prev_norm x0 = Inf ->
    exists x, next true x0 = (x, None) /\ reached k0 0 x /\ residue_cache x = None.
  Proof.
    intros Hw Ho Hf Hp. eexists. split; [apply next_accept; left; exact Hp|]. split; [|reflexivity].
    unfold reached. cbn. rewrite Ho, Hf. repeat split; assumption.
  Qed.
  Lemma reached_next k0 m x : reached k0 m x -> (norm o (U m) <> 0)%R ->
    exists x', next false x = (x', None) /\ reached k0 (Datatypes.S m) x' /\ residue_cache x' = None.
  Proof.
    intros (Hw & Ho & Hf & Hp & Hi) Hn. eexists. split; [|split].
    - apply next_accept. right. exists (norm o (U m)). split; [exact Hp|]. pose proof (norm_nonneg o (U m)). split; [lra|].
      rewrite Ho, Hf. change (update o (X (Datatypes.S m))) with (U (Datatypes.S m)). apply norm_lt, de_lt. rewrite <- norm_0. exact Hn.
    - unfold reached. cbn [wavenumber operators field prev_norm iteration set_prev_norm set_field set_residue set_iteration]. rewrite Ho, Hf, Hi.
      repeat split; try assumption. lia.
    - reflexivity.
  Qed.
  Definition settled (rtol : R) (m : nat) : Prop := (norm o (U m) = 0 \/ norm o (U m) <= rtol * norm o (X (Datatypes.S m)))%R.
  (** What the callback finds. *)
  Definition vanished (k0 : R) (x : solution) : Prop := exists m, reached k0 m x /\ vnorm2 n s (X (Datatypes.S m)) = 0%R /\ vnorm2 n s (U m) <> 0%R.
  Lemma reached_limits {W} k0 m x maxiter rtol (w : W) : (0 <= rtol)%R -> reached k0 m x -> residue_cache x = None ->
    (limits maxiter rtol w x = (w, x, Err ZeroDivisionError) /\ vanished k0 x) \/
    exists x' b, limits maxiter rtol w x = (w, x', Ok b) /\ reached k0 m x' /\
      (b = true -> norm o (U m) <> 0%R /\ ~ settled rtol m /\ (maxiter = None -> norm o (X (Datatypes.S m)) <> 0%R)) /\
      (b = false -> (exists i, maxiter = Some i /\ (i <= iteration x')%Z) \/ (settled rtol m /\ exists y, snd (read_residue x') = Ok (Fin y) /\ (y <= rtol)%R)).
  Proof.
    intros Hr Hx Hc. pose proof Hx as (Hw & Ho & Hf & Hp & Hi). unfold limits.
    destruct (match maxiter with None => true | Some m => (iteration x <? m)%Z end) eqn:Em.
    - unfold read_residue. rewrite Hc. unfold calculate_residue. rewrite Hp, Ho, Hf.
      assert (forall r, reached k0 m (set_residue x r)) as Hs by (intros r; exact Hx).
      destruct (Rlt_dec 0 (norm o (U m))) as [Hlt|Hle].
      + destruct (Req_EM_T (norm o (X (Datatypes.S m))) 0) as [Hz|Hnz].
        * left. split; [reflexivity|]. exists m. split; [exact Hx|]. split; [apply norm_0; exact Hz|intros E; apply norm_0 in E; lra].
        * right. pose proof (norm_nonneg o (X (Datatypes.S m))).
          assert (norm o (U m) / norm o (X (Datatypes.S m)) <= rtol <-> norm o (U m) <= rtol * norm o (X (Datatypes.S m)))%R as Hd.
          { split; intros HH.
            - apply (Rmult_le_compat_r (norm o (X (Datatypes.S m)))) in HH; [|lra]. unfold Rdiv in HH. rewrite Rmult_assoc, Rinv_l in HH by lra. lra.
            - apply Rmult_le_reg_r with (norm o (X (Datatypes.S m))); [lra|]. unfold Rdiv. rewrite Rmult_assoc, Rinv_l by lra. lra. }
          destruct (Rlt_dec rtol (norm o (U m) / norm o (X (Datatypes.S m)))) as [Hc1|Hc1]; eexists; eexists; (split; [reflexivity|]); (split; [apply Hs|]).
          -- split; [|discriminate]. intros _. split; [lra|]. split; [|intros _; exact Hnz]. unfold settled. intros [HH|HH]; [lra|]. apply Hd in HH. lra.
          -- split; [discriminate|]. intros _. right. split; [right; apply Hd; lra|]. eexists. split; [reflexivity|]. lra.
      + right. assert (norm o (U m) = 0)%R as Hz by (pose proof (norm_nonneg o (U m)); lra).
        destruct (Rlt_dec rtol 0); [lra|]. eexists; eexists; (split; [reflexivity|]). split; [apply Hs|]. split; [discriminate|]. intros _. right.
        split; [left; exact Hz|]. eexists. split; [reflexivity|]. exact Hr.
    - right. exists x, false. split; [reflexivity|]. split; [exact Hx|]. split; [discriminate|]. intros _. left.
      destruct maxiter as [i|]; [|discriminate]. exists i. split; [reflexivity|]. apply Z.ltb_ge. exact Em.
  Qed.
  Definition ended (k0 : R) (maxiter : option Z) (rtol : R) (x : solution) : Prop :=
    exists m, reached k0 m x /\
    ((exists i, maxiter = Some i /\ (i <= iteration x)%Z) \/ (settled rtol m /\ exists y, snd (read_residue x) = Ok (Fin y) /\ (y <= rtol)%R)).
  Definition finished {W} (k0 : R) (maxiter : option Z) (rtol : R) (w : W) (r : option (outcome W)) : Prop :=
    (exists x, r = Some (Returned w x) /\ ended k0 maxiter rtol x) \/ (exists x, r = Some (Raised w x ZeroDivisionError) /\ vanished k0 x).
  Lemma run_tail {W} k0 maxiter rtol (w : W) N : (0 <= rtol)%R -> settled rtol N ->
    forall j m x, (m + j = N)%nat -> reached k0 m x -> residue_cache x = None ->
    finished k0 maxiter rtol w (match limits maxiter rtol w x with
      | (w2, s2, Err e) => Some (Raised w2 s2 e)
      | (w2, s2, Ok true) => loop j (limits maxiter rtol) false w2 s2
      | (w2, s2, Ok false) => Some (Returned w2 s2)
      end).
  Proof.
    intros Hr HN. induction j as [|j IH]; intros m x Hm Hx Hc.
    - destruct (reached_limits k0 m x maxiter rtol w Hr Hx Hc) as [(-> & V)|(x' & [|] & -> & Hx' & Ht & Hf)].
      + right. exists x. split; [reflexivity|exact V].
      + destruct (Ht eq_refl) as (_ & Hns & _). exfalso. apply Hns. replace m with N by lia. exact HN.
      + left. exists x'. split; [reflexivity|]. exists m. split; [exact Hx'|exact (Hf eq_refl)].
    - destruct (reached_limits k0 m x maxiter rtol w Hr Hx Hc) as [(-> & V)|(x' & [|] & -> & Hx' & Ht & Hf)].
      + right. exists x. split; [reflexivity|exact V].
      + destruct (Ht eq_refl) as (Hnz & _). destruct (reached_next k0 m x' Hx' Hnz) as (x2 & E2 & Hx2 & Hc2). cbn [loop]. rewrite E2.
        apply (IH (Datatypes.S m) x2); [lia|exact Hx2|exact Hc2].
      + left. exists x'. split; [reflexivity|]. exists m. split; [exact Hx'|exact (Hf eq_refl)].
  Qed.
  Lemma run_finishes {W} k0 maxiter rtol (w : W) x0 : (start = none \/ vnorm2 n s (update o none) <> 0%R) -> (0 < rtol)%R ->
    wavenumber x0 = k0 -> operators x0 = o -> field x0 = start -> prev_norm x0 = Inf ->
    exists fuel, finished k0 maxiter rtol w (loop fuel (limits maxiter rtol) true w x0).
  Proof.
    intros Hs Hr Hw Ho Hf Hp. destruct (de_small rtol Hs Hr) as (N & HN).
    assert (settled rtol N) as HS.
    { right. pose proof (norm_nonneg o (U N)). pose proof (norm_nonneg o (X (Datatypes.S N))). rewrite <- !norm_sq in HN.
      apply Rnot_lt_le. intros Hlt. assert (0 <= rtol * norm o (X (Datatypes.S N)))%R by (apply Rmult_le_pos; lra). nra. }
    destruct (reached_first k0 x0 Hw Ho Hf Hp) as (x1 & E1 & Hx1 & Hc1).
    exists (Datatypes.S N). cbn [loop]. rewrite E1. apply (run_tail k0 maxiter rtol w N ltac:(lra) HS N 0%nat x1 eq_refl Hx1 Hc1).
  Qed.
  Lemma run_returns {W} k0 maxiter rtol (w : W) x0 : (forall m, vnorm2 n s (U m) <> 0%R -> vnorm2 n s (X (Datatypes.S m)) <> 0%R) ->
    (start = none \/ vnorm2 n s (update o none) <> 0%R) -> (0 < rtol)%R -> wavenumber x0 = k0 -> operators x0 = o -> field x0 = start -> prev_norm x0 = Inf ->
    exists fuel x, loop fuel (limits maxiter rtol) true w x0 = Some (Returned w x) /\ ended k0 maxiter rtol x.
  Proof.
    intros Hn Hs Hr Hw Ho Hf Hp. destruct (run_finishes k0 maxiter rtol w x0 Hs Hr Hw Ho Hf Hp) as (fuel & [(x & E & Hx)|(x & _ & m & _ & Hz & Hu)]).
    - exists fuel, x. split; assumption.
    - exfalso. exact (Hn m Hu Hz).
  Qed.
  Lemma run_ends {W} k0 maxiter rtol (w : W) x0 : start = none -> (0 < rtol)%R -> wavenumber x0 = k0 -> operators x0 = o -> field x0 = start -> prev_norm x0 = Inf ->
    exists fuel x, loop fuel (limits maxiter rtol) true w x0 = Some (Returned w x) /\ ended k0 maxiter rtol x.
  Proof. intros Hs. apply run_returns; [intros m; apply de_nonzero; exact Hs|left; exact Hs]. Qed.

  (** If the field is at most a multiple of the last change, then it is never small enough. *)
  Lemma run_never {W} K' k0 rtol (w : W) : (0 < rtol)%R -> (0 < K')%R -> (K' * rtol < 1)%R -> (forall m, (norm o (X (Datatypes.S m)) <= K' * norm o (U m))%R) ->
    forall j m x, reached k0 m x -> residue_cache x = None -> norm o (X m) <> 0%R -> forall w' x',
    match limits None rtol w x with
      | (w2, s2, Err e) => Some (Raised w2 s2 e)
      | (w2, s2, Ok true) => loop j (limits None rtol) false w2 s2
      | (w2, s2, Ok false) => Some (Returned w2 s2)
      end <> Some (Returned w' x').
  Proof.
    intros Hr HK HKr HB.
    assert (forall m, norm o (X m) <> 0 -> ~ settled rtol m)%R as HS.
    { intros m Hn Hs. pose proof (HB m) as B. pose proof (norm_nonneg o (X (Datatypes.S m))) as P. pose proof (norm_nonneg o (U m)) as Q.
      assert (norm o (X (Datatypes.S m)) = 0)%R as Z.
      { destruct Hs as [Hs|Hs]; [rewrite Hs in B; lra|]. assert (norm o (X (Datatypes.S m)) <= K' * rtol * norm o (X (Datatypes.S m)))%R by (rewrite Rmult_assoc; eapply Rle_trans; [exact B|]; apply Rmult_le_compat_l; lra). nra. }
      assert (norm o (U m) = 0)%R as ZU by (destruct Hs as [Hs|Hs]; [exact Hs|rewrite Z in Hs; lra]).
      apply Hn. apply norm_0 in Z, ZU. apply norm_0. rewrite <- Z. apply vagree_vnorm2. apply vnorm2_zero in ZU. intros c p Hc Hp.
      change (X (Datatypes.S m)) with (next_field o (X m)). change (U m) with (update o (X m)) in ZU. unfold next_field. rewrite (ZU c p Hc Hp). ring. }
    induction j as [|j IH]; intros m x Hx Hc Hn w' x'.
    - destruct (reached_limits k0 m x None rtol w (Rlt_le _ _ Hr) Hx Hc) as [(-> & V)|(x1 & [|] & -> & Hx1 & Ht & Hf)]; try discriminate.
      destruct (Hf eq_refl) as [(i & Hi & _)|(Hs & _)]; [discriminate|]. exfalso. exact (HS m Hn Hs).
    - destruct (reached_limits k0 m x None rtol w (Rlt_le _ _ Hr) Hx Hc) as [(-> & V)|(x1 & [|] & -> & Hx1 & Ht & Hf)]; try discriminate.
      + destruct (Ht eq_refl) as (Hnz & _ & Hn1). destruct (reached_next k0 m x1 Hx1 Hnz) as (x2 & E2 & Hx2 & Hc2). cbn [loop]. rewrite E2.
        apply (IH (Datatypes.S m) x2 Hx2 Hc2 (Hn1 eq_refl)).
      + destruct (Hf eq_refl) as [(i & Hi & _)|(Hs & _)]; [discriminate|]. exfalso. exact (HS m Hn Hs).
  Qed.

  (** Whatever is returned, is a field of the iteration. *)
  Lemma run_reached {W} k0 maxiter rtol (w : W) : (0 <= rtol)%R -> forall j m x, reached k0 m x -> residue_cache x = None -> forall w' x',
    match limits maxiter rtol w x with
      | (w2, s2, Err e) => Some (Raised w2 s2 e)
      | (w2, s2, Ok true) => loop j (limits maxiter rtol) false w2 s2
      | (w2, s2, Ok false) => Some (Returned w2 s2)
      end = Some (Returned w' x') -> exists m', reached k0 m' x'.
  Proof.
    intros Hr. induction j as [|j IH]; intros m x Hx Hc w' x'.
    - destruct (reached_limits k0 m x maxiter rtol w Hr Hx Hc) as [(-> & V)|(x1 & [|] & -> & Hx1 & Ht & Hf)]; try discriminate.
      injection 1 as _ <-. exists m. exact Hx1.
    - destruct (reached_limits k0 m x maxiter rtol w Hr Hx Hc) as [(-> & V)|(x1 & [|] & -> & Hx1 & Ht & Hf)]; try discriminate.
      + destruct (Ht eq_refl) as (Hnz & _). destruct (reached_next k0 m x1 Hx1 Hnz) as (x2 & E2 & Hx2 & Hc2). cbn [loop]. rewrite E2.
        apply (IH (Datatypes.S m) x2 Hx2 Hc2).
      + injection 1 as _ <-. exists m. exact Hx1.
  Qed.

  (** With a contraction the last change bounds the error. *)
  Lemma error_bound q (Es : vfield) m : (0 <= q < 1)%R -> vagree n s (next_field o Es) Es ->
    (forall E E', vnorm2 n s (fun c p => next_field o E c p - next_field o E' c p)%C <= q * vnorm2 n s (fun c p => E c p - E' c p)%C)%R ->
    (norm o (fun c p => X (Datatypes.S m) c p - Es c p)%C <= 2 / (1 - q) * norm o (U m))%R.
  Proof.
    intros Hq HEs Hc. set (a := vnorm2 n s (fun c p => X (Datatypes.S m) c p - Es c p)%C). set (b := vnorm2 n s (U m)).
    assert (0 <= a)%R as Ha by apply vnorm2_nonneg. assert (0 <= b)%R as Hb by apply vnorm2_nonneg.
    assert (a <= q * vnorm2 n s (fun c p => X m c p - Es c p)%C)%R as H1.
    { unfold a. rewrite (vagree_vnorm2 n s _ (fun c p => next_field o (X m) c p - next_field o Es c p)); [apply Hc|].
      intros c p Hc' Hp. change (X (Datatypes.S m)) with (next_field o (X m)). rewrite (HEs c p Hc' Hp). reflexivity. }
    set (t := ((1 - q) / 2)%R).
    assert (vnorm2 n s (fun c p => X m c p - Es c p)%C <= (1 + t) * a + (1 + / t) * b)%R as H2.
    { rewrite (vagree_vnorm2 n s _ (fun c p => (X (Datatypes.S m) c p - Es c p) + - (1) * U m c p)).
      - eapply Rle_trans; [apply (vnorm2_weighted _ _ _ _ t); unfold t; lra|]. rewrite vnorm2_scal, Cmod_opp, Cmod_1. fold a b. lra.
      - intros c p _ _. change (X (Datatypes.S m)) with (next_field o (X m)). change (U m) with (update o (X m)). generalize (X m). intros Y. unfold next_field. ring. }
    assert (a <= 2 / (1 - q) * (2 / (1 - q)) * b)%R as H3.
    { set (r := (1 - q)%R) in *. assert (q = 1 - r)%R as Eq by (unfold r; ring). assert (0 < r <= 1)%R as Hr by lra.
      assert (/ t = 2 / r)%R as Et by (unfold t; field; lra). rewrite Et in H2.
      assert (a * (r * r) <= 4 * b)%R as H4.
      { assert (a <= (1 - r) * ((1 + r / 2) * a + (1 + 2 / r) * b))%R as H5.
        { eapply Rle_trans; [exact H1|]. rewrite <- Eq. apply Rmult_le_compat_l; [lra|]. unfold t in H2. exact H2. }
        assert (r * a <= r * ((1 - r) * ((1 + r / 2) * a)) + (1 - r) * (r + 2) * b)%R as H6.
        { replace (r * ((1 - r) * ((1 + r / 2) * a)) + (1 - r) * (r + 2) * b)%R with (r * ((1 - r) * ((1 + r / 2) * a + (1 + 2 / r) * b)))%R by (field; lra).
          apply Rmult_le_compat_l; lra. }
        assert (0 <= r * r * a)%R by (apply Rmult_le_pos; nra). nra. }
      apply Rmult_le_reg_r with (r * r)%R; [nra|]. replace (2 / r * (2 / r) * b * (r * r))%R with (4 * b)%R by (field; lra). exact H4. }
    assert (0 < 2 / (1 - q))%R as Hp by (apply Rdiv_lt_0_compat; lra).
    rewrite <- (sqrt_square (2 / (1 - q))) by lra. unfold norm. fold n s. fold a b. rewrite <- sqrt_mult by nra. apply sqrt_le_1_alt. exact H3.
  Qed.
End Descent.

(** ** The solution of the wave equation *)
Section SI.
  Variables (v : bool) (g : raster) (k0 : R) (alpha : C) (beta : R) (eps mu : tensor) (S : vfield).
  Hypothesis Hs : solvable v g k0.
  Hypothesis Hf : fits v eps.
  Hypothesis Hmu : fits v mu.
  Hypothesis Ha : (0 < snd alpha)%R.
  Hypothesis Hb : (0 < beta)%R.
  Variables (loss rho : R).
  Let n := (if v then 3 else 1)%nat.
  Hypothesis Hloss : absorbs n (rshape g) eps loss.
  Hypothesis Hrho : deviates n (rshape g) eps beta (fst alpha) (rho * snd alpha).
  Hypothesis Hr : (0 <= rho < 1)%R.
  Let o := prepare (scaled k0 g) v false alpha beta eps tzero tzero mu S.
  Variable x0 : solution.
  Hypothesis Hw : wavenumber x0 = k0.
  Hypothesis Ho : operators x0 = o.
  Hypothesis H0 : forall c p, field x0 c p = 0.
  Hypothesis Hp : prev_norm x0 = Inf.
  Let M := fun F : vfield => (fun c p => F c p + chi_op o (fun c p => green_op o (chi_op o F) c p - F c p) c p) : vfield.

  Lemma si_len : vector_length o = n.
  Proof. reflexivity. Qed.
  (** What Descent needs. *)
  Lemma si_M_vagree F G : vagree n (rshape g) F G -> vagree n (rshape g) (M F) (M G).
  Proof. exact (M_vagree v (scaled k0 g) alpha beta eps mu S (si_grid v g k0 Hs) (si_ndim v g k0 Hs) Ha Hb Hf F G). Qed.
  Lemma si_next_vagree F G : vagree n (rshape g) F G -> vagree n (rshape g) (next_field o F) (next_field o G).
  Proof. exact (next_vagree v (scaled k0 g) alpha beta eps mu S (si_grid v g k0 Hs) (si_ndim v g k0 Hs) Ha Hb Hf F G). Qed.
  Lemma si_next_minus F G : vagree n (rshape g) (fun c p => next_field o F c p - next_field o G c p) (M (fun c p => F c p - G c p)).
  Proof. exact (next_minus v (scaled k0 g) alpha beta eps mu S (si_grid v g k0 Hs) (si_ndim v g k0 Hs) Ha Hb Hf F G). Qed.
  Lemma si_M_le : (0 <= loss)%R -> forall e, (vnorm2 n (rshape g) (M e) <= vnorm2 n (rshape g) e)%R.
  Proof. intros Hl e. exact (M_nonincreasing v (scaled k0 g) alpha beta eps mu S (si_grid v g k0 Hs) (si_ndim v g k0 Hs) Ha Hb Hf loss rho Hloss Hl Hrho (proj1 Hr) e ltac:(lra)). Qed.
  Lemma si_kappa : (0 < (1 - rho * rho) / 4)%R.
  Proof. nra. Qed.
  Lemma si_M_drop : (0 <= loss)%R -> forall F, ((1 - rho * rho) / 4 * vnorm2 n (rshape g) (fun c p => M F c p - F c p)%C <= vnorm2 n (rshape g) F - vnorm2 n (rshape g) (M F))%R.
  Proof. intros Hl F. exact (M_drop_update v (scaled k0 g) alpha beta eps mu S (si_grid v g k0 Hs) (si_ndim v g k0 Hs) Ha Hb Hf loss rho Hloss Hl Hrho (proj1 Hr) F (proj2 Hr)). Qed.
  Lemma si_still E : wave_equation v g k0 beta eps E S -> vagree n (rshape g) (update o (fun c p => RtoC (k0 * k0) * E c p)) none.
  Proof. intros HE. apply (update_zero_of_wave v g k0 alpha beta eps mu E S Hs); (lra || assumption). Qed.
  Lemma si_rate E start : (0 <= loss)%R -> wave_equation v g k0 beta eps E S -> forall m,
    (INR (Datatypes.S m) * vnorm2 n (rshape g) (update o (Nat.iter m (next_field o) start)) <=
      4 / (1 - rho * rho) * vnorm2 n (rshape g) (fun c p => start c p - RtoC (k0 * k0) * E c p)%C)%R.
  Proof.
    intros Hl HE m. apply (updates_rate v (scaled k0 g) alpha beta eps mu S (si_grid v g k0 Hs) (si_ndim v g k0 Hs) Ha Hb Hf loss rho Hloss Hl Hrho (proj1 Hr) start _ m (proj2 Hr)).
    exact (si_still E HE).
  Qed.
  (** From any field. *)
  Lemma si_finishes {W} E maxiter rtol (w : W) : (0 <= loss)%R -> wave_equation v g k0 beta eps E S -> vnorm2 n (rshape g) (update o none) <> 0%R -> (0 < rtol)%R ->
    exists fuel, finished o (field x0) k0 maxiter rtol w (loop fuel (limits maxiter rtol) true w x0).
  Proof.
    intros Hl HE Hn Ht.
    exact (run_finishes o M si_M_vagree si_next_minus (si_M_le Hl) _ si_kappa (si_M_drop Hl) (field x0) _ (si_rate E (field x0) Hl HE) k0 maxiter rtol w x0
      (or_intror Hn) Ht Hw Ho eq_refl Hp).
  Qed.
  Lemma si_returns {W} E maxiter rtol (w : W) : (0 <= loss)%R -> wave_equation v g k0 beta eps E S -> vnorm2 n (rshape g) (update o none) <> 0%R ->
    (vnorm2 n (rshape g) (fun c p => field x0 c p - RtoC (k0 * k0) * E c p)%C <= vnorm2 n (rshape g) (fun c p => RtoC (k0 * k0) * E c p)%C)%R -> (0 < rtol)%R ->
    exists fuel x, loop fuel (limits maxiter rtol) true w x0 = Some (Returned w x) /\ ended o (field x0) k0 maxiter rtol x.
  Proof.
    intros Hl HE Hn Hd Ht.
    refine (run_returns o M si_M_vagree si_next_minus (si_M_le Hl) _ si_kappa (si_M_drop Hl) (field x0) _ (si_rate E (field x0) Hl HE) k0 maxiter rtol w x0
      _ (or_intror Hn) Ht Hw Ho eq_refl Hp).
    intros m. exact (de_closer o M si_next_minus (si_M_le Hl) _ si_kappa (si_M_drop Hl) (field x0) _ m (si_still E HE) Hd).
  Qed.
  Lemma si_solve_ends {W} E maxiter rtol (w : W) : (0 <= loss)%R -> wave_equation v g k0 beta eps E S -> (0 < rtol)%R ->
    exists fuel x, loop fuel (limits maxiter rtol) true w x0 = Some (Returned w x) /\ ended o none k0 maxiter rtol x.
  Proof.
    intros Hl HE Ht.
    exact (run_ends o M si_M_vagree si_next_vagree si_next_minus (si_M_le Hl) _ si_kappa (si_M_drop Hl) none _ (si_rate E none Hl HE) k0 maxiter rtol w x0
      eq_refl Ht Hw Ho (none_is _ H0) Hp).
  Qed.
  Lemma si_error start (E : vfield) k m x : (k <= 2 * (loss / (beta * snd alpha)))%R -> (k <= 1 - rho * rho)%R -> (0 < k)%R ->
    wave_equation v g k0 beta eps E S -> reached o start k0 m x ->
    (magnitude x (fun c p => get_E x c p - E c p)%C <= 4 / k * (norm o (update o (Nat.iter m (next_field o) start)) / (k0 * k0)))%R.
  Proof.
    intros Hk1 Hk2 Hk HE (Xw & Xo & Xf & Xp & Xi). pose proof Hs as (Hg0 & Hk0 & Hn0).
    pose proof (si_grid v g k0 Hs) as Hg. pose proof (si_ndim v g k0 Hs) as Hn.
    assert (0 < k0 * k0)%R as Hkk by (apply k2_pos; exact Hk0).
    assert (norm o (fun c p => Nat.iter (Datatypes.S m) (next_field o) start c p - RtoC (k0 * k0) * E c p)%C <=
            2 / (1 - (1 - k / 2)) * norm o (update o (Nat.iter m (next_field o) start)))%R as HB.
    { apply (error_bound o start (1 - k / 2)).
      - assert (k <= 1)%R by nra. lra.
      - apply (fixed_next v (scaled k0 g) alpha beta eps mu S). apply (update_zero_of_wave v g k0 alpha beta eps mu E S Hs); (lra || assumption).
      - intros F G. apply (distance_contracts v (scaled k0 g) alpha beta eps mu S Hg Hn Ha Hb Hf loss rho Hloss Hrho F G k Hk1 Hk2). lra. }
    rewrite magnitude_norm, Xo.
    rewrite (norm_ext o _ (fun c p => (Nat.iter (Datatypes.S m) (next_field o) start c p - RtoC (k0 * k0) * E c p) / RtoC (k0 * k0))).
    - rewrite norm_electric by exact Hk0. replace (2 / (1 - (1 - k / 2)))%R with (4 / k)%R in HB by (field; lra).
      unfold Rdiv at 1 3. rewrite <- Rmult_assoc. apply Rmult_le_compat_r; [|exact HB]. left. apply Rinv_0_lt_compat. exact Hkk.
    - intros c p _ _. unfold get_E, electric_field. rewrite Xw, Xf. field. apply k2_neq. exact Hk0.
  Qed.
  Lemma si_reached_E start m x : reached o start k0 m x -> magnitude x (get_E x) = (norm o (Nat.iter (Datatypes.S m) (next_field o) start) / (k0 * k0))%R.
  Proof. intros (Xw & Xo & Xf & _ & _). destruct Hs as (_ & Hk0 & _). rewrite magnitude_E by (rewrite Xw; exact Hk0). rewrite Xw, Xo, Xf. reflexivity. Qed.
  (** The last change bounds the error. *)
  Lemma si_error_limit : (0 < loss)%R -> exists (E : vfield) (K : R), (0 < K)%R /\ wave_equation v g k0 beta eps E S /\
    (forall E', wave_equation v g k0 beta eps E' S -> vagree n (rshape g) E' E) /\
    forall start rtol x, (0 < rtol)%R -> ended o start k0 None rtol x -> (magnitude x (fun c p => get_E x c p - E c p)%C <= K * rtol * magnitude x (get_E x))%R.
  Proof.
    intros Hl. destruct (si_converges v g k0 alpha beta eps mu S Hs Hf Hmu Ha Hb loss rho Hloss Hrho Hr none Hl) as (E & q & Hq & HE & Hu & _).
    set (k := Rmin (2 * (loss / (beta * snd alpha))) (1 - rho * rho)).
    assert (0 < k)%R as Hk.
    { unfold k. apply Rmin_glb_lt; [|nra]. apply Rmult_lt_0_compat; [lra|]. apply Rdiv_lt_0_compat; nra. }
    exists E, (4 / k)%R. split; [apply Rdiv_lt_0_compat; lra|]. split; [exact HE|]. split; [exact Hu|]. intros start rtol x Ht (m & Hx & [(i & Hi & _)|(Hsm & _)]); [discriminate|].
    rewrite (si_reached_E start m x Hx).
    eapply Rle_trans; [apply (si_error start E k m x (Rmin_l _ _) (Rmin_r _ _) Hk HE Hx)|].
    destruct Hs as (_ & Hk0 & _). assert (0 < k0 * k0)%R as Hkk by (apply k2_pos; exact Hk0).
    unfold Rdiv at 2 4. rewrite <- !Rmult_assoc. apply Rmult_le_compat_r; [left; apply Rinv_0_lt_compat; exact Hkk|]. rewrite Rmult_assoc.
    apply Rmult_le_compat_l; [left; apply Rdiv_lt_0_compat; lra|].
    destruct Hsm as [Hz|Hle]; [|exact Hle].
    rewrite Hz. apply Rmult_le_pos; [lra|apply norm_nonneg].
  Qed.
  (** Without source the iteration from another field does not end. *)
  Lemma si_tolerance : (0 < loss)%R -> (0 < Rmin (2 * (loss / (beta * snd alpha))) (1 - rho * rho) / 4)%R.
  Proof.
    intros Hl. apply Rdiv_lt_0_compat; [|lra]. apply Rmin_glb_lt; [|nra]. apply Rmult_lt_0_compat; [lra|]. apply Rdiv_lt_0_compat; [exact Hl|]. apply Rmult_lt_0_compat; assumption.
  Qed.
  Lemma si_never {W} rtol : (0 < loss)%R -> vagree n (rshape g) (update o none) none -> (0 < rtol < Rmin (2 * (loss / (beta * snd alpha))) (1 - rho * rho) / 4)%R -> norm o (field x0) <> 0%R ->
    forall fuel (w w' : W) x', loop fuel (limits None rtol) true w x0 <> Some (Returned w' x').
  Proof.
    intros Hl Hz. pose proof (si_tolerance Hl) as Hk. set (k := Rmin (2 * (loss / (beta * snd alpha))) (1 - rho * rho)).
    fold k in Hk. intros Ht Hn [|fuel] w w' x'; [discriminate|]. cbn [loop].
    destruct (reached_first o (field x0) k0 x0 Hw Ho eq_refl Hp) as (x1 & E1 & Hx1 & Hc1). rewrite E1.
    refine (run_never o M si_M_vagree si_next_minus (si_M_le (Rlt_le _ _ Hl)) _ si_kappa (si_M_drop (Rlt_le _ _ Hl)) (field x0) (4 / (1 - rho * rho) * vnorm2 n (rshape g) (fun c p => field x0 c p - none c p)%C)%R _ (4 / k) k0 rtol w (proj1 Ht) _ _ _ fuel 0%nat x1 Hx1 Hc1 Hn w' x').
    - intros m. apply (updates_rate v (scaled k0 g) alpha beta eps mu S (si_grid v g k0 Hs) (si_ndim v g k0 Hs) Ha Hb Hf loss rho Hloss (Rlt_le _ _ Hl) Hrho (proj1 Hr) (field x0) none m (proj2 Hr)).
      exact Hz.
    - apply Rdiv_lt_0_compat; lra.
    - replace 1%R with (4 / k * (k / 4))%R by (field; lra). apply Rmult_lt_compat_l; [apply Rdiv_lt_0_compat; lra|apply Ht].
    - intros m. replace (4 / k)%R with (2 / (1 - (1 - k / 2)))%R by (field; lra).
      rewrite (norm_ext o _ (fun c p => Nat.iter (Datatypes.S m) (next_field o) (field x0) c p - none c p)) by (intros c p _ _; unfold none; ring).
      apply (error_bound o (field x0) (1 - k / 2)).
      + assert (k <= 1)%R by (unfold k; eapply Rle_trans; [apply Rmin_r|nra]). lra.
      + intros c p Hc Hi. unfold next_field. rewrite (Hz c p Hc Hi). unfold none. ring.
      + intros F G. apply (distance_contracts v (scaled k0 g) alpha beta eps mu S (si_grid v g k0 Hs) (si_ndim v g k0 Hs) Ha Hb Hf loss rho Hloss Hrho F G k (Rmin_l _ _) (Rmin_r _ _)). lra.
  Qed.
  (** The field only comes closer to solutions. *)
  Lemma si_closer {W} E maxiter rtol : (0 <= loss)%R -> wave_equation v g k0 beta eps E S -> (0 <= rtol)%R ->
    forall fuel (w w' : W) x, loop fuel (limits maxiter rtol) true w x0 = Some (Returned w' x) -> wavenumber x = k0 /\ operators x = o /\
      (vnorm2 n (rshape g) (fun c p => field x c p - RtoC (k0 * k0) * E c p)%C <= vnorm2 n (rshape g) (fun c p => field x0 c p - RtoC (k0 * k0) * E c p)%C)%R.
  Proof.
    intros Hl HE Ht [|fuel] w w' x'; [discriminate|]. cbn [loop].
    destruct (reached_first o (field x0) k0 x0 Hw Ho eq_refl Hp) as (x1 & E1 & Hx1 & Hc1). rewrite E1. intros EL.
    destruct (run_reached o M si_M_vagree si_next_minus (si_M_le Hl) _ si_kappa (si_M_drop Hl) (field x0) _ (si_rate E (field x0) Hl HE) k0 maxiter rtol w Ht fuel 0%nat x1 Hx1 Hc1 w' x' EL) as (m & Xw & Xo & Xf & _).
    split; [exact Xw|]. split; [exact Xo|]. rewrite Xf.
    exact (proj1 (de_distance o M si_next_minus (si_M_le Hl) _ si_kappa (si_M_drop Hl) (field x0) _ (Datatypes.S m) (si_still E HE))).
  Qed.
  (** The whole story for lossy media. *)
  Lemma si_solve_accurate {W} (w : W) : (0 < loss)%R ->
    exists (E : vfield) (K : R), wave_equation v g k0 beta eps E S /\ (forall E', wave_equation v g k0 beta eps E' S -> vagree n (rshape g) E' E) /\
      forall rtol, (0 < rtol)%R -> exists fuel x, loop fuel (limits None rtol) true w x0 = Some (Returned w x) /\
        (magnitude x (fun c p => get_E x c p - E c p)%C <= K * rtol * magnitude x (get_E x))%R.
  Proof.
    intros Hl. destruct (si_error_limit Hl) as (E & K & _ & HE & Hu & HK). exists E, K. split; [exact HE|]. split; [exact Hu|]. intros rtol Ht.
    destruct (si_solve_ends E None rtol w (Rlt_le _ _ Hl) HE Ht) as (fuel & x & EL & Hx). exists fuel, x. split; [exact EL|]. exact (HK none rtol x Ht Hx).
  Qed.
End SI.
