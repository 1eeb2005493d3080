(** Proofs about the whole iteration: rate of convergence, existence and uniqueness of the limit. *)
From Coq Require Import Reals Lra Lia List Arith Bool.
From Coquelicot Require Import Rbar Hierarchy Lim_seq Series.
Require Import Verif.Base Verif.Cplx Verif.CSum Verif.Field Verif.Fourier_Model Verif.Fourier_Spec Verif.Fourier_Proofs.
Require Import Verif.Vec_Model Verif.Vec_Spec Verif.Vec_Proofs Verif.Solver_Model Verif.Solver_Spec Verif.Solver_Proofs Verif.Solver_Convergence.
Import ListNotations.
Local Open Scope R_scope.
Local Open Scope C_scope.

Lemma inside_sum_le s F p : inside s p -> (forall q, inside s q -> (0 <= F q)%R) -> (F p <= rsum_over s F)%R.
Proof.
  intros Hp H0. revert F H0. induction Hp as [|m i s' p Hi Hp IH]; intros F H0; cbn [rsum_over]; [lra|].
  apply Rle_trans with (rsum_over s' (fun p => F (i :: p))).
  - apply (IH (fun p => F (i :: p))). intros q Hq. apply H0. constructor; assumption.
  - set (h := fun i => rsum_over s' (fun p => F (i :: p))).
    assert (forall j, (j < m)%nat -> (0 <= h j)%R) as Hh.
    { intros j Hj. apply rsum_over_nonneg. intros q Hq. apply H0. constructor; assumption. }
    change (h i <= rsum m h)%R. clear -Hi Hh. induction m as [|m IH]; [lia|]. cbn [rsum].
    destruct (Nat.eq_dec i m) as [->|Hne].
    + assert (0 <= rsum m h)%R by (apply rsum_nonneg; intros; apply Hh; lia). lra.
    + assert (0 <= h m)%R by (apply Hh; lia). assert (h i <= rsum m h)%R by (apply IH; [lia|intros; apply Hh; lia]). lra.
Qed.
Lemma point_le_vnorm2 n s F c p : (c < n)%nat -> inside s p -> (Cmod (F c p) * Cmod (F c p) <= vnorm2 n s F)%R.
Proof.
  intros Hc Hp. rewrite vnorm2_flat. unfold norm2.
  apply (inside_sum_le (n :: s) (fun q => Cmod (flat F q) * Cmod (flat F q))%R (c :: p)); [constructor; assumption|].
  intros q _. pose proof (Cmod_ge_0 (flat F q)). nra.
Qed.
Lemma rsum_lim n (F : nat -> nat -> R) (G : nat -> R) : (forall i, (i < n)%nat -> is_lim_seq (fun m => F m i) (G i)) ->
  is_lim_seq (fun m => rsum n (F m)) (rsum n G).
Proof.
  induction n as [|n IH]; intros H; cbn [rsum]; [apply is_lim_seq_const|].
  apply is_lim_seq_plus'; [apply IH; intros; apply H; lia|apply H; lia].
Qed.
Lemma rsum_over_lim s (F : nat -> list nat -> R) (G : list nat -> R) : (forall p, inside s p -> is_lim_seq (fun m => F m p) (G p)) ->
  is_lim_seq (fun m => rsum_over s (F m)) (rsum_over s G).
Proof.
  revert F G. induction s as [|k s IH]; intros F G H; cbn [rsum_over]; [apply H; constructor|].
  apply (rsum_lim k (fun m i => rsum_over s (fun p => F m (i :: p))) (fun i => rsum_over s (fun p => G (i :: p)))).
  intros i Hi. apply (IH (fun m p => F m (i :: p)) (fun p => G (i :: p))). intros p Hp. apply H. constructor; assumption.
Qed.
Lemma rsum_over_zero s : rsum_over s (fun _ => 0%R) = 0%R.
Proof.
  apply RtoC_inj. rewrite <- sum_over_RtoC. apply sum_over_zero.
Qed.

(** ** One medium, one value of alpha *)
Section Iterate.
  Variables (v : bool) (g : raster) (alpha : C) (beta : R) (eps mu : tensor) (S : vfield).
  Hypothesis Hg : proper g.
  Hypothesis Hn : v = true -> (rndim g <= 3)%nat.
  Hypothesis Ha : (0 < snd alpha)%R.
  Hypothesis Hb : (0 < beta)%R.
  Hypothesis Hf : fits v eps.
  Let o := prepare g v false alpha beta eps tzero tzero mu S.
  Let n := (if v then 3 else 1)%nat.
  Let s := rshape g.
  Let M (F : vfield) : vfield := fun c p => F c p + chi_op o (fun c p => green_op o (chi_op o F) c p - F c p) c p.

  Lemma convolve_minus_gen op F G c p :
    (forall F G k, op (fun c k => F c k - G c k) c k = op F c k - op G c k) -> pointwise s n op -> (c < n)%nat ->
    convolve s op (fun c p => F c p - G c p) c p = convolve s op F c p - convolve s op G c p.
  Proof.
    intros H Hpw Hc. unfold convolve, vift. rewrite <- ift_minus. apply ift_ext. intros k Hk. rewrite <- H.
    apply (Hpw _ _ k Hk); [|exact Hc]. intros d Hd. unfold vft. apply ft_minus.
  Qed.
  Lemma g_ft_minus F G c k : g_ft_op o (fun c k => F c k - G c k) c k = g_ft_op o F c k - g_ft_op o G c k.
  Proof. unfold g_ft_op. destruct (o_vectorial o); [rewrite longitudinal_minus|]; ring. Qed.
  Lemma green_minus F G : vagree n s (green_op o (fun c p => F c p - G c p)) (fun c p => green_op o F c p - green_op o G c p).
  Proof.
    intros c p Hc Hp. unfold green_op. change (rshape (o_grid o)) with s. apply convolve_minus_gen; [|apply (g_pointwise o n)|exact Hc].
    - intros F' G' k. apply g_ft_minus.
    - intros E. apply (fine_ndim o (pa_fine v g alpha beta eps mu S Hg Hn Ha) E).
  Qed.
  Lemma tapply_minus t F G c p : tapply t (fun c p => F c p - G c p) c p = tapply t F c p - tapply t G c p.
  Proof.
    destruct t; cbn [tapply]; [ring|]. rewrite (csum_ext _ _ (fun j => m c j p * F j p + - (1) * (m c j p * G j p))) by (intros; ring).
    rewrite csum_plus, csum_scal. ring.
  Qed.
  Lemma chi_minus F G c p : (c < n)%nat -> chi_op o (fun c p => F c p - G c p) c p = chi_op o F c p - chi_op o G c p.
  Proof.
    intros Hc. unfold o. rewrite !(pa_chi v g alpha beta eps mu S Hn Ha Hb Hf) by exact Hc. rewrite tapply_minus. unfold Cdiv. ring.
  Qed.
  Lemma chi_vagree F G : vagree n s F G -> vagree n s (chi_op o F) (chi_op o G).
  Proof.
    intros H c p Hc Hp. unfold o. rewrite !(pa_chi v g alpha beta eps mu S Hn Ha Hb Hf) by exact Hc.
    rewrite (W_vagree v g alpha beta eps mu S Hf F G H c p Hc Hp), (H c p Hc Hp). reflexivity.
  Qed.
  Lemma green_vagree' F G : vagree n s F G -> vagree n s (green_op o F) (green_op o G).
  Proof. apply (green_vagree o F G (pa_fine v g alpha beta eps mu S Hg Hn Ha)). Qed.

  Lemma next_minus E E' : vagree n s (fun c p => next_field o E c p - next_field o E' c p) (M (fun c p => E c p - E' c p)).
  Proof.
    intros c p Hc Hp. unfold next_field, update, M.
    set (A := fun c p => green_op o (fun c p => chi_op o E c p + o_source o c p) c p - E c p).
    set (B := fun c p => green_op o (fun c p => chi_op o E' c p + o_source o c p) c p - E' c p).
    transitivity (E c p - E' c p + chi_op o (fun c p => A c p - B c p) c p); [rewrite chi_minus by assumption; ring|]. f_equal.
    apply chi_vagree; try assumption. intros c' p' Hc' Hp'. unfold A, B.
    transitivity (green_op o (fun c p => (chi_op o E c p + o_source o c p) - (chi_op o E' c p + o_source o c p)) c' p' - (E c' p' - E' c' p')).
    - rewrite (green_minus _ _ c' p' Hc' Hp'). ring.
    - f_equal. apply green_vagree'; try assumption. intros c2 p2 Hc2 Hp2. rewrite chi_minus by assumption. ring.
  Qed.
  Lemma M_vagree F G : vagree n s F G -> vagree n s (M F) (M G).
  Proof.
    intros H c p Hc Hp. unfold M. rewrite (H c p Hc Hp). f_equal. apply chi_vagree; try assumption. intros c' p' Hc' Hp'.
    rewrite (H c' p' Hc' Hp'). f_equal. apply green_vagree'; try assumption. apply chi_vagree. assumption.
  Qed.
  Lemma next_vagree E E' : vagree n s E E' -> vagree n s (next_field o E) (next_field o E').
  Proof.
    intros H c p Hc Hp. unfold next_field, update. rewrite (H c p Hc Hp). f_equal. apply chi_vagree; try assumption.
    intros c' p' Hc' Hp'. rewrite (H c' p' Hc' Hp'). f_equal. apply green_vagree'; try assumption. intros c2 p2 Hc2 Hp2.
    rewrite (chi_vagree _ _ H c2 p2 Hc2 Hp2). reflexivity.
  Qed.
  Lemma update_next E : vagree n s (update o (next_field o E)) (M (update o E)).
  Proof.
    intros c p Hc Hp. transitivity (next_field o (next_field o E) c p - next_field o E c p); [unfold next_field at 2; ring|].
    rewrite (next_minus (next_field o E) E c p Hc Hp). apply M_vagree; try assumption. intros c' p' _ _. unfold next_field. ring.
  Qed.

  Variables (loss rho : R).
  Hypothesis Hloss : absorbs n s eps loss.
  Hypothesis Hloss0 : (0 <= loss)%R.
  Hypothesis Hrho : deviates n s eps beta (fst alpha) (rho * snd alpha).
  Hypothesis Hrho0 : (0 <= rho)%R.

  Lemma M_nonincreasing e : (rho <= 1)%R -> (vnorm2 n s (M e) <= vnorm2 n s e)%R.
  Proof. apply (energy_nonincreasing v g alpha beta eps mu S Hg Hn Ha Hb Hf loss rho Hloss Hloss0 Hrho Hrho0). Qed.

  Lemma corrections_nonincreasing E : (rho <= 1)%R -> (vnorm2 n s (update o (next_field o E)) <= vnorm2 n s (update o E))%R.
  Proof. intros Hr. rewrite (vagree_vnorm2 _ _ _ _ (update_next E)). apply M_nonincreasing. assumption. Qed.

  Lemma distance_nonincreasing E E' : (rho <= 1)%R ->
    (vnorm2 n s (fun c p => next_field o E c p - next_field o E' c p)%C <= vnorm2 n s (fun c p => E c p - E' c p)%C)%R.
  Proof. intros Hr. rewrite (vagree_vnorm2 _ _ _ _ (next_minus E E')). apply M_nonincreasing. assumption. Qed.

  Lemma distance_contracts E E' k : (k <= 2 * (loss / (beta * snd alpha)))%R -> (k <= 1 - rho * rho)%R -> (0 <= k)%R ->
    (vnorm2 n s (fun c p => next_field o E c p - next_field o E' c p)%C <= (1 - k / 2) * vnorm2 n s (fun c p => E c p - E' c p)%C)%R.
  Proof.
    intros H1 H2 H3. rewrite (vagree_vnorm2 _ _ _ _ (next_minus E E')).
    apply (energy_contracts v g alpha beta eps mu S Hg Hn Ha Hb Hf loss rho Hloss Hrho); assumption.
  Qed.

  (** *** The corrections vanish, also without loss *)
  Lemma chi_le d : (rho <= 1)%R -> (vnorm2 n s (chi_op o d) <= 4 * vnorm2 n s d)%R.
  Proof.
    intros Hr. assert (vagree n s (chi_op o d) _) as H by exact (fun c p Hc _ => pa_chi v g alpha beta eps mu S Hn Ha Hb Hf d c p Hc).
    rewrite (vagree_vnorm2 n s _ _ H). clear H.
    eapply Rle_trans; [apply vnorm2_sum_le|]. pose proof (deviation v g alpha beta eps mu S Ha Hf loss rho Hloss Hrho d) as H. cbn zeta in H.
    cbn beta in H. fold n s in H. pose proof (vnorm2_nonneg n s d). assert (rho * rho <= 1)%R by nra.
    assert (rho * rho * vnorm2 n s d <= 1 * vnorm2 n s d)%R by (apply Rmult_le_compat_r; assumption). lra.
  Qed.
  Lemma M_drop_update F : (rho < 1)%R ->
    ((1 - rho * rho) / 4 * vnorm2 n s (fun c p => M F c p - F c p)%C <= vnorm2 n s F - vnorm2 n s (M F))%R.
  Proof.
    intros Hr. pose proof (energy_drop v g alpha beta eps mu S Hg Hn Ha Hb Hf loss rho Hloss Hrho F) as H. cbn zeta in H. fold o n s in H.
    set (d := fun c p => (F c p - green_op o (chi_op o F) c p)%C) in H.
    assert (vagree n s (fun c p => M F c p - F c p) (chi_op o (fun c p => green_op o (chi_op o F) c p - F c p))) as HM by (intros c p _ _; unfold M; ring).
    rewrite (vagree_vnorm2 _ _ _ _ HM).
    assert (vnorm2 n s (fun c p => green_op o (chi_op o F) c p - F c p)%C = vnorm2 n s d) as Hd.
    { rewrite (vagree_vnorm2 n s (fun c p => green_op o (chi_op o F) c p - F c p) (fun c p => - (1) * d c p)) by (intros c p _ _; unfold d; ring).
      rewrite vnorm2_scal, Cmod_opp, Cmod_1. ring. }
    pose proof (chi_le (fun c p => (green_op o (chi_op o F) c p - F c p)%C) ltac:(lra)) as H2. rewrite Hd in H2.
    pose proof (vnorm2_nonneg n s (green_op o (chi_op o F))).
    assert (0 <= loss / (beta * snd alpha))%R by (apply Rmult_le_pos; [assumption|left; apply Rinv_0_lt_compat; nra]).
    assert (0 < 1 - rho * rho)%R by nra. cbn beta in H. change (fun c p => F c p - green_op o (chi_op o F) c p) with d in H.
    change (fun c p => F c p + chi_op o (fun c0 p0 => green_op o (chi_op o F) c0 p0 - F c0 p0) c p) with (M F) in H.
    set (X := vnorm2 n s (chi_op o (fun c p => green_op o (chi_op o F) c p - F c p))) in *.
    assert ((1 - rho * rho) / 4 * X <= (1 - rho * rho) / 4 * (4 * vnorm2 n s d))%R by (apply Rmult_le_compat_l; lra).
    assert (0 <= 2 * (loss / (beta * snd alpha)) * vnorm2 n s (green_op o (chi_op o F)))%R by (apply Rmult_le_pos; lra).
    lra.
  Qed.

  Definition iterate (k : nat) (E : vfield) : vfield := Nat.iter k (next_field o) E.

  Lemma updates_nonincreasing E k : (rho <= 1)%R -> (vnorm2 n s (update o (iterate (Datatypes.S k) E)) <= vnorm2 n s (update o (iterate k E)))%R.
  Proof. intros Hr. apply corrections_nonincreasing. assumption. Qed.

  Lemma fixed_next Es : vagree n s (update o Es) (fun _ _ => 0) -> vagree n s (next_field o Es) Es.
  Proof. intros H c p Hc Hp. unfold next_field. rewrite (H c p Hc Hp). ring. Qed.

  Lemma step_drop E Es : (rho < 1)%R -> vagree n s (update o Es) (fun _ _ => 0) ->
    ((1 - rho * rho) / 4 * vnorm2 n s (update o E) <=
     vnorm2 n s (fun c p => E c p - Es c p)%C - vnorm2 n s (fun c p => next_field o E c p - Es c p)%C)%R.
  Proof.
    intros Hr Hs. set (F := fun c p => (E c p - Es c p)%C). pose proof (M_drop_update F Hr) as H.
    assert (vagree n s (fun c p => next_field o E c p - Es c p) (M F)) as H1.
    { intros c p Hc Hp. rewrite <- (fixed_next Es Hs c p Hc Hp) at 1. apply (next_minus E Es c p Hc Hp). }
    rewrite (vagree_vnorm2 _ _ _ _ H1).
    replace (vnorm2 n s (update o E)) with (vnorm2 n s (fun c p => M F c p - F c p)%C); [exact H|]. apply vagree_vnorm2.
    intros c p Hc Hp. rewrite <- (H1 c p Hc Hp). unfold F, next_field. ring.
  Qed.

  Lemma updates_sum E Es k : (rho < 1)%R -> vagree n s (update o Es) (fun _ _ => 0) ->
    ((1 - rho * rho) / 4 * rsum k (fun j => vnorm2 n s (update o (iterate j E))) <=
     vnorm2 n s (fun c p => E c p - Es c p)%C - vnorm2 n s (fun c p => iterate k E c p - Es c p)%C)%R.
  Proof.
    intros Hr Hs. induction k as [|k IH]; cbn [rsum].
    - cbn [iterate Nat.iter nat_rect]. lra.
    - pose proof (step_drop (iterate k E) Es Hr Hs) as H. change (next_field o (iterate k E)) with (iterate (Datatypes.S k) E) in H. lra.
  Qed.

  Lemma updates_rate E Es k : (rho < 1)%R -> vagree n s (update o Es) (fun _ _ => 0) ->
    (INR (Datatypes.S k) * vnorm2 n s (update o (iterate k E)) <= 4 / (1 - rho * rho) * vnorm2 n s (fun c p => E c p - Es c p)%C)%R.
  Proof.
    intros Hr Hs. pose proof (updates_sum E Es (Datatypes.S k) Hr Hs) as H.
    pose proof (vnorm2_nonneg n s (fun c p => iterate (Datatypes.S k) E c p - Es c p)%C).
    assert (INR (Datatypes.S k) * vnorm2 n s (update o (iterate k E)) <= rsum (Datatypes.S k) (fun j => vnorm2 n s (update o (iterate j E))))%R as H1.
    { rewrite <- (Rmult_1_r (vnorm2 _ _ _)).
      assert (forall m, (m <= k)%nat -> (vnorm2 n s (update o (iterate k E)) <= vnorm2 n s (update o (iterate m E)))%R) as Hm.
      { intros m Hm. induction Hm as [|k Hm IH]; [lra|]. eapply Rle_trans; [apply updates_nonincreasing; lra|]. apply IH; try assumption.
        - pose proof (updates_sum E Es (Datatypes.S k) Hr Hs). assumption.
        - apply vnorm2_nonneg. }
      clear -Hm. assert (forall j, (j <= Datatypes.S k)%nat ->
        (INR j * (vnorm2 n s (update o (iterate k E)) * 1) <= rsum j (fun j => vnorm2 n s (update o (iterate j E))))%R) as Hj.
      { induction j as [|j IH]; intros Hj; [cbn; lra|]. rewrite S_INR. cbn [rsum]. pose proof (Hm j ltac:(lia)). pose proof (IH ltac:(lia)). lra. }
      apply Hj. lia. }
    assert (0 < 1 - rho * rho)%R as Hp by nra.
    apply Rle_trans with (4 / (1 - rho * rho) * ((1 - rho * rho) / 4 * rsum (Datatypes.S k) (fun j => vnorm2 n s (update o (iterate j E)))))%R.
    - replace (4 / (1 - rho * rho) * ((1 - rho * rho) / 4 * rsum (Datatypes.S k) (fun j => vnorm2 n s (update o (iterate j E)))))%R
        with (rsum (Datatypes.S k) (fun j => vnorm2 n s (update o (iterate j E))))%R by (field; lra). exact H1.
    - apply Rmult_le_compat_l; [|lra]. apply Rmult_le_pos; [lra|]. left. apply Rinv_0_lt_compat. exact Hp.
  Qed.

  (** *** With loss the iteration has a limit, the only solution *)
  Section Lossy.
    Variable k : R.
    Hypothesis Hk1 : (k <= 2 * (loss / (beta * snd alpha)))%R.
    Hypothesis Hk2 : (k <= 1 - rho * rho)%R.
    Hypothesis Hk0 : (0 < k)%R.
    Let q := (1 - k / 2)%R.

    Lemma q_range : (/ 2 <= q < 1)%R.
    Proof. unfold q. assert (k <= 1)%R by nra. lra. Qed.

    Lemma fixed_unique E1 E2 : vagree n s (update o E1) (fun _ _ => 0) -> vagree n s (update o E2) (fun _ _ => 0) -> vagree n s E1 E2.
    Proof.
      intros H1 H2. pose proof (distance_contracts E1 E2 k Hk1 Hk2 ltac:(lra)) as H. fold q in H.
      rewrite (vagree_vnorm2 n s _ (fun c p => E1 c p - E2 c p)) in H.
      - pose proof (vnorm2_nonneg n s (fun c p => E1 c p - E2 c p)%C) as Hnn. pose proof q_range as Hq.
        assert (vnorm2 n s (fun c p => E1 c p - E2 c p)%C = 0%R) as H0 by nra.
        apply vnorm2_zero in H0. intros c p Hc Hp. specialize (H0 c p Hc Hp). cbn beta in H0.
        transitivity (E1 c p - E2 c p + E2 c p); [ring|]. rewrite H0. ring.
      - intros c p Hc Hp. rewrite (fixed_next _ H1 c p Hc Hp), (fixed_next _ H2 c p Hc Hp). reflexivity.
    Qed.

    Lemma error_geometric E Es m : vagree n s (update o Es) (fun _ _ => 0) ->
      (vnorm2 n s (fun c p => iterate m E c p - Es c p)%C <= q ^ m * vnorm2 n s (fun c p => E c p - Es c p)%C)%R.
    Proof.
      intros Hs. induction m as [|m IH]; [cbn [pow iterate Nat.iter nat_rect]; lra|].
      rewrite (vagree_vnorm2 n s _ (fun c p => next_field o (iterate m E) c p - next_field o Es c p)).
      - eapply Rle_trans; [apply (distance_contracts _ _ k); lra|]. fold q. cbn [pow]. rewrite Rmult_assoc. apply Rmult_le_compat_l; [|exact IH].
        pose proof q_range. lra.
      - intros c p Hc Hp. rewrite (fixed_next _ Hs c p Hc Hp). reflexivity.
    Qed.

    Lemma update_geometric E m : (vnorm2 n s (update o (iterate m E)) <= q ^ m * vnorm2 n s (update o E))%R.
    Proof.
      induction m as [|m IH]; [cbn [pow iterate Nat.iter nat_rect]; lra|].
      assert (vnorm2 n s (update o (iterate (Datatypes.S m) E)) <= q * vnorm2 n s (update o (iterate m E)))%R as H.
      { change (iterate (Datatypes.S m) E) with (next_field o (iterate m E)). rewrite (vagree_vnorm2 _ _ _ _ (update_next (iterate m E))).
        apply (energy_contracts v g alpha beta eps mu S Hg Hn Ha Hb Hf loss rho Hloss Hrho); lra. }
      cbn [pow]. rewrite Rmult_assoc. eapply Rle_trans; [exact H|]. apply Rmult_le_compat_l; [|exact IH]. pose proof q_range. lra.
    Qed.

    Lemma pow_sqrt m : sqrt (q ^ m) = (sqrt q ^ m)%R.
    Proof.
      pose proof q_range. induction m as [|m IH]; cbn [pow]; [apply sqrt_1|]. rewrite sqrt_mult, IH; [reflexivity|lra|]. apply pow_le. lra.
    Qed.
    Lemma update_point E m c p : (c < n)%nat -> inside s p ->
      (Cmod (update o (iterate m E) c p) <= sqrt (vnorm2 n s (update o E)) * sqrt q ^ m)%R.
    Proof.
      intros Hc Hp. rewrite <- pow_sqrt, <- sqrt_mult.
      - rewrite <- (sqrt_Rsqr (Cmod (update o (iterate m E) c p))) by apply Cmod_ge_0. apply sqrt_le_1_alt. unfold Rsqr.
        eapply Rle_trans; [apply (point_le_vnorm2 n s (update o (iterate m E)) c p Hc Hp)|]. rewrite Rmult_comm. apply update_geometric.
      - apply vnorm2_nonneg.
      - apply pow_le. pose proof q_range. lra.
    Qed.

    Variable E0 : vfield.
    Let a (pr : C -> R) c p (m : nat) := pr (update o (iterate m E0) c p).
    Lemma summable (pr : C -> R) c p : (forall z, (Rabs (pr z) <= Cmod z)%R) -> (c < n)%nat -> inside s p -> ex_series (a pr c p).
    Proof.
      intros Hpr Hc Hp. apply (ex_series_le (K := R_AbsRing) (V := R_CompleteNormedModule) _ (fun m => scal (sqrt (vnorm2 n s (update o E0))) (sqrt q ^ m)%R)).
      - intros m. eapply Rle_trans; [apply Hpr|]. apply update_point; assumption.
      - apply (ex_series_scal (K := R_AbsRing) (V := R_NormedModule)). apply ex_series_geom. rewrite Rabs_pos_eq by apply sqrt_pos.
        pose proof q_range. rewrite <- sqrt_1. apply sqrt_lt_1_alt. lra.
    Qed.
    Definition limit : vfield := fun c p => E0 c p + ((Series (a fst c p), Series (a snd c p)) : C).

    Lemma iterate_sum (pr : C -> R) c p m : (forall x y, pr (x + y) = (pr x + pr y)%R) ->
      pr (iterate (Datatypes.S m) E0 c p) = (pr (E0 c p) + sum_n (a pr c p) m)%R.
    Proof.
      intros Hpr. induction m as [|m IH].
      - rewrite sum_O. cbn [iterate Nat.iter nat_rect]. unfold next_field. rewrite Hpr. reflexivity.
      - rewrite sum_Sn. change (iterate (Datatypes.S (Datatypes.S m)) E0) with (next_field o (iterate (Datatypes.S m) E0)).
        unfold next_field at 1. rewrite Hpr, IH.
        change (plus (sum_n (a pr c p) m) (a pr c p (Datatypes.S m))) with (sum_n (a pr c p) m + a pr c p (Datatypes.S m))%R.
        rewrite <- Rplus_assoc. reflexivity.
    Qed.
    Lemma point_limit (pr : C -> R) c p l : (forall x y, pr (x + y) = (pr x + pr y)%R) -> (forall z, (Rabs (pr z) <= Cmod z)%R) ->
      (c < n)%nat -> inside s p -> l = (pr (E0 c p) + Series (a pr c p))%R -> is_lim_seq (fun m => pr (iterate m E0 c p)) l.
    Proof.
      intros Hadd Hle Hc Hp ->. apply is_lim_seq_incr_1.
      apply is_lim_seq_ext with (fun m => pr (E0 c p) + sum_n (a pr c p) m)%R; [intros m; symmetry; apply iterate_sum; assumption|].
      apply is_lim_seq_plus'; [apply is_lim_seq_const|]. apply (Series_correct _ (summable pr c p Hle Hc Hp)).
    Qed.
    Lemma fst_plus (x y : C) : fst (x + y) = (fst x + fst y)%R.
    Proof. reflexivity. Qed.
    Lemma snd_plus (x y : C) : snd (x + y) = (snd x + snd y)%R.
    Proof. reflexivity. Qed.

    Lemma limit_point c p : (c < n)%nat -> inside s p ->
      is_lim_seq (fun m => fst (iterate m E0 c p)) (fst (limit c p)) /\ is_lim_seq (fun m => snd (iterate m E0 c p)) (snd (limit c p)).
    Proof.
      intros Hc Hp. split; apply point_limit; try assumption; try reflexivity; try apply fst_plus; try apply snd_plus; intros z; [apply Cmod_Re_le|apply Cmod_Im_le].
    Qed.
    Lemma limit_vnorm2 : is_lim_seq (fun m => vnorm2 n s (fun c p => iterate m E0 c p - limit c p)%C) 0%R.
    Proof.
      assert (is_lim_seq (fun m => rsum_over s (fun p => rsum n (fun c => (Cmod (iterate m E0 c p - limit c p)%C * Cmod (iterate m E0 c p - limit c p)%C)%R)))
                (rsum_over s (fun p => rsum n (fun _ => 0%R)))) as H.
      { apply (rsum_over_lim s (fun m p => rsum n (fun c => (Cmod (iterate m E0 c p - limit c p)%C * Cmod (iterate m E0 c p - limit c p)%C)%R)) (fun p => rsum n (fun _ => 0%R))).
        intros p Hp. apply (rsum_lim n (fun m c => (Cmod (iterate m E0 c p - limit c p)%C * Cmod (iterate m E0 c p - limit c p)%C)%R) (fun _ => 0%R)).
        intros c Hc. destruct (limit_point c p Hc Hp) as [H1 H2].
        apply is_lim_seq_ext with (fun m => ((fst (iterate m E0 c p) - fst (limit c p)) * (fst (iterate m E0 c p) - fst (limit c p))
          + (snd (iterate m E0 c p) - snd (limit c p)) * (snd (iterate m E0 c p) - snd (limit c p)))%R).
        - intros m. rewrite Cmod_sq. cbn. ring.
        - set (a1 := fst (limit c p)) in *. set (a2 := snd (limit c p)) in *.
          replace (Finite 0) with (Finite ((a1 - a1) * (a1 - a1) + (a2 - a2) * (a2 - a2))%R) by (f_equal; ring).
          apply is_lim_seq_plus'; apply is_lim_seq_mult'; apply is_lim_seq_minus'; try assumption; apply is_lim_seq_const. }
      assert (forall m, rsum m (fun _ => 0%R) = 0%R) as Hz by (induction m as [|m IH]; cbn; rewrite ?IH; ring).
      replace (rsum_over s (fun p => rsum n (fun _ => 0%R))) with 0%R in H.
      - apply is_lim_seq_ext with (2 := H). intros m. rewrite vnorm2_points. reflexivity.
      - rewrite (rsum_over_ext _ _ (fun _ => 0%R)) by (intros; apply Hz). symmetry. apply rsum_over_zero.
    Qed.

    Lemma limit_fixed : vagree n s (update o limit) (fun _ _ => 0).
    Proof.
      assert (rho <= 1)%R as Hr by nra.
      apply vnorm2_zero. apply Rle_antisym; [|apply vnorm2_nonneg].
      assert (is_lim_seq (fun m => 2 * vnorm2 n s (fun c p => iterate m E0 c p - limit c p)%C + 2 * vnorm2 n s (fun c p => iterate (Datatypes.S m) E0 c p - limit c p)%C)%R 0%R) as HL.
      { replace (Finite 0) with (Finite (2 * 0 + 2 * 0)%R) by (f_equal; ring).
        apply is_lim_seq_plus'; (apply is_lim_seq_mult'; [apply is_lim_seq_const|]).
        - exact limit_vnorm2.
        - apply (is_lim_seq_incr_1 (fun m => vnorm2 n s (fun c p => iterate m E0 c p - limit c p)%C)). exact limit_vnorm2. }
      apply (is_lim_seq_le (fun _ => vnorm2 n s (update o limit)) _ (Finite (vnorm2 n s (update o limit))) (Finite 0)) in HL; [exact HL| |apply is_lim_seq_const].
      intros m. cbn beta.
      rewrite (vagree_vnorm2 n s (update o limit) (fun c p => (next_field o limit c p - next_field o (iterate m E0) c p) + (iterate (Datatypes.S m) E0 c p - limit c p))).
      - eapply Rle_trans; [apply vnorm2_sum_le|]. apply Rplus_le_compat_r. apply Rmult_le_compat_l; [lra|].
        eapply Rle_trans; [apply distance_nonincreasing; assumption|]. apply Req_le.
        rewrite (vagree_vnorm2 n s (fun c p => limit c p - iterate m E0 c p) (fun c p => - (1) * (iterate m E0 c p - limit c p))) by (intros c p _ _; ring).
        rewrite vnorm2_scal, Cmod_opp, Cmod_1. ring.
      - intros c p _ _. change (iterate (Datatypes.S m) E0) with (next_field o (iterate m E0)). unfold next_field at 1. ring.
    Qed.
  End Lossy.
End Iterate.
