(** Recovery of displaced references, failures, and the history of a Registration. *)
From Coq Require Import Reals List Arith Bool ZArith Lia Lra.
From Flocq Require Import Core.
Require Import Verif.Base Verif.CSum Verif.Field Verif.Fourier_Model Verif.Fourier_Spec Verif.Fourier_Proofs Verif.Vec_Model Verif.Modes_Model Verif.Modes_Proofs.
Require Import Verif.Shift_Model Verif.Shift_Spec Verif.Shift_Proofs Verif.Shift_Moves Verif.Register_Model Verif.Register_Spec Verif.Register_Proofs Verif.Register_Whole Verif.Register_Fine Verif.Cplx.
Import ListNotations.
Local Open Scope R_scope.
Local Open Scope C_scope.

(** ** Resolved shifts *)
Lemma resolved_multiple s t precision : (/ 100000000 < precision)%R -> Forall (fun n => (INR n <= 400000000 * precision)%R) s -> nonempty s -> length t = length s -> Forall (fun d => exists z, d = (IZR z * precision)%R) t -> Forall2 resolved_shift s t.
Proof.
  intros P B S L F. revert t L F. induction B as [|n s B _ IH]; intros [|d t] L F; try discriminate; constructor; inversion S as [|? ? N S']; inversion F as [|? ? (z & ->) F']; subst; [|apply IH; auto].
  destruct (Z.eq_dec z 0) as [->|Z]; [left; ring|right]. assert (1 <= Rabs (IZR z))%R as A by (rewrite <- abs_IZR; apply (IZR_le 1); lia).
  apply lt_0_INR in N. pose proof PI2_1 as P1. unfold PI2 in P1. assert (precision <= Rabs (IZR z * precision))%R as A' by (rewrite Rabs_mult, (Rabs_pos_eq precision) by lra; nra). split; [lra|].
  unfold Rdiv. rewrite !Rabs_mult, (Rabs_pos_eq 2), (Rabs_pos_eq PI), (Rabs_pos_eq (/ INR n)) by (try lra; left; apply Rinv_0_lt_compat; exact N). rewrite <- Rabs_mult.
  apply (Rmult_lt_reg_r (INR n)); [exact N|]. rewrite !Rmult_assoc, Rinv_l, Rmult_1_r by lra. nra.
Qed.

(** ** The best match *)
Lemma best_located s r f (allowed : list R -> Prop) precision t : lit s r -> lit s f -> length t = length s -> Forall2 resolved_shift s t -> (forall t', allowed t' -> length t' = length s) ->
  let X := cross_ft s (ft s r) (ft s f) in locate s X precision = Ok (t, val s X t) -> (forall t', allowed t' -> (Cmod (val s X t') <= Cmod (val s X t))%R) ->
  exists g, register s (Some f) (Some r) (Some precision) = Ok g /\ g_shift g = t /\ best s r f allowed g /\ g_factor g = (if near_zero (Cmod (val s X t)) then Infinite else Finite (RtoC (mean2 s (ft s f)) / (Cconj (val s X t) * RtoC (reference_norm s (ft s r))))).
Proof.
  intros Lr Lf T R A X L M. destruct (register_located s r f precision t (val s X t) Lr Lf T R L eq_refl) as (g & e & G & St & E & B & O & W & F). exists g. split; [exact G|]. split; [exact St|]. split.
  - exists e. split; [exact E|]. split; [exact B|]. split; [rewrite St; exact T|]. rewrite St. split; [|split; [exact W|exact F]].
    intros t' a Ht'. pose proof (A t' Ht') as T'. eapply Rle_trans; [|apply (misfit_least s r f t' a Lr Lf T')].
    eapply Rle_trans; [apply (O (Cconj (ip s r (moved s (back t) f)) / RtoC (norm2 s f)))|]. rewrite misfit_best by assumption.
    pose proof (M t' Ht') as V. unfold X in V. rewrite !(peak_mod s r f) in V by assumption. pose proof (sqrt_lt_R0 _ (lit_pos _ _ Lr)) as P. pose proof (lit_pos _ _ Lf) as P'.
    assert (Cmod (ip s r (moved s (back t') f)) <= Cmod (ip s r (moved s (back t) f)))%R as Q. { apply (Rmult_le_reg_r (/ sqrt (norm2 s r))); [apply Rinv_0_lt_compat, P|exact V]. }
    pose proof (Cmod_ge_0 (ip s r (moved s (back t') f))). apply Rplus_le_compat_l, Ropp_le_contravar, Rmult_le_compat_r; [left; apply Rinv_0_lt_compat, P'|]. apply Rmult_le_compat; assumption.
  - revert G. unfold register, register_ft. fold X. rewrite L. cbn [bind]. intros G. injection G as <-. reflexivity.
Qed.
Lemma best_whole s r f z : lit s r -> lit s f -> z <> 0%Z -> at_most s 1 -> exists g, register s (Some f) (Some r) (Some (IZR z)) = Ok g /\ integer_shift s (g_shift g) /\ best s r f (integer_shift s) g /\
    let X := cross_ft s (ft s r) (ft s f) in g_factor g = (if near_zero (Cmod (val s X (g_shift g))) then Infinite else Finite (RtoC (mean2 s (ft s f)) / (Cconj (val s X (g_shift g)) * RtoC (reference_norm s (ft s r))))).
Proof.
  intros Lr Lf Z B. pose proof (lit_nonempty _ _ Lr) as S. destruct (locate_whole s (cross_ft s (ft s r) (ft s f)) (IZR z) S (whole_IZR z)) as (t & L & I & M); [intros H; apply Z, eq_IZR, H|].
  assert (Forall2 resolved_shift s t) as R. { apply (resolved_multiple s t 1); [lra|exact B|exact S|apply I|]. eapply Forall_impl; [|apply I]. intros d (y & ->). exists y. ring. }
  destruct (best_located s r f (integer_shift s) (IZR z) t Lr Lf (proj1 I) R (fun t' H => proj1 H) L M) as (g & G & St & H & F). exists g. split; [exact G|]. rewrite St. split; [exact I|]. split; [exact H|exact F].
Qed.
Lemma best_fine s r f m : lit s r -> lit s f -> (length s <= 2)%nat -> (1 < m < 50000000)%Z -> let precision := (/ IZR (2 * m))%R in at_most s precision -> exists g, register s (Some f) (Some r) (Some precision) = Ok g /\
    Forall (fun d => exists z, d = (IZR z * precision)%R) (g_shift g) /\ best s r f (half_shift s) g /\
    let X := cross_ft s (ft s r) (ft s f) in g_factor g = (if near_zero (Cmod (val s X (g_shift g))) then Infinite else Finite (RtoC (mean2 s (ft s f)) / (Cconj (val s X (g_shift g)) * RtoC (reference_norm s (ft s r))))).
Proof.
  intros Lr Lf D [M1 M2] precision B. pose proof (lit_nonempty _ _ Lr) as S. assert (1 < IZR m)%R as P1 by (apply (IZR_lt 1); exact M1). assert (IZR m < 50000000)%R as P2 by (apply IZR_lt; exact M2).
  assert (0 < precision <= 1 / 2)%R as P. { unfold precision. rewrite mult_IZR. split; [apply Rinv_0_lt_compat; lra|]. replace (1 / 2)%R with (/ 2)%R by field. apply Rinv_le_contravar; lra. }
  assert (/ 100000000 < precision)%R as P3. { unfold precision. rewrite mult_IZR. apply Rinv_lt_contravar; lra. }
  destruct (locate_fine s (cross_ft s (ft s r) (ft s f)) precision m D S M1 eq_refl (whole_fraction precision P P3)) as (t & L & T & F & M).
  pose proof (resolved_multiple s t precision P3 B S T F) as R. destruct (best_located s r f (half_shift s) precision t Lr Lf T R (fun t' H => proj1 H) L M) as (g & G & St & H & E). exists g. split; [exact G|]. rewrite St. split; [exact F|]. split; [exact H|exact E].
Qed.

(** ** Recovery *)
Lemma lit_pos_inv s f : (0 < norm2 s f)%R -> lit s f.
Proof.
  intros P. destruct (Exists_dec (fun p => f p <> 0) (indices s)) as [E|E].
  - intros p. destruct (Ceq_dec (f p) 0) as [H|H]; [right; intros N; contradiction|left; exact H].
  - apply Exists_exists in E as (p & Hp & H). exists p. split; [apply indices_inside, Hp|exact H].
  - exfalso. assert (norm2 s f = norm2 s (fun _ => 0)) as Z. { apply norm2_ext. intros p Hp. destruct (Ceq_dec (f p) 0) as [H|H]; [exact H|]. exfalso. apply E, Exists_exists. exists p. split; [apply indices_inside, Hp|exact H]. }
    assert (norm2 s (fun _ => RtoC 0) = 0%R) as Z0. { rewrite (norm2_ext s _ (fun p => RtoC 0 * RtoC 0)) by (intros; ring). rewrite norm2_scal, Cmod_0. ring. }
    lra.
Qed.
Lemma same_place_diff s : forall x y, length x = length s -> length y = length s -> same_place s (both (back x) y) (map (fun _ => 0%R) s) -> same_place s x y.
Proof.
  induction s as [|n s IH]; intros [|u x] [|v y] Lx Ly H; try discriminate; cbn in *; [exact I|]. destruct H as [(c & H) H']. split; [exists (- c)%Z; rewrite opp_IZR; lra|]. apply IH; [congruence|congruence|exact H'].
Qed.
Lemma moved_place s f x y p : nonempty s -> same_place s x y -> inside s p -> moved s x f p = moved s y f p.
Proof.
  intros S H Hp. destruct (same_place_length _ _ _ H) as [Lx Ly]. rewrite !moved_ift by assumption. apply ift_ext. intros q _. rewrite <- !angle_back. rewrite (cis_angle_place s q (back x) (back y)); [reflexivity|exact S|].
  clear -H. revert x y H. induction s as [|n s IH]; intros [|u x] [|v y] H; cbn in *; try contradiction; auto. destruct H as [(c & ->) H]. split; [exists (- c)%Z; rewrite opp_IZR; ring|apply IH, H].
Qed.
Lemma moved_place0 s f x p : nonempty s -> same_place s x (map (fun _ => 0%R) s) -> inside s p -> moved s x f p = f p.
Proof. intros S H Hp. rewrite (moved_place s f x _ p S H Hp). apply moved_zero; [apply map_length| |exact Hp]. apply Forall_forall. intros d Hd. apply in_map_iff in Hd as (? & <- & _). reflexivity. Qed.
Section Recovery.
  Variables (s : list nat) (r f : sfield) (k : C) (t0 : list R) (allowed : list R -> Prop) (g : registration).
  Hypotheses (Lr : lit s r) (K : (/ 100000000 < Cmod k)%R) (K' : (/ 100000000 < Cmod k * sqrt (norm2 s r))%R) (T0 : length t0 = length s) (A : allowed t0).
  Hypothesis F : agree s f (fun p => k * moved s t0 r p).
  Hypothesis Best : best s r f allowed g.
  Let X := cross_ft s (ft s r) (ft s f).
  Hypothesis Fac : g_factor g = (if near_zero (Cmod (val s X (g_shift g))) then Infinite else Finite (RtoC (mean2 s (ft s f)) / (Cconj (val s X (g_shift g)) * RtoC (reference_norm s (ft s r))))).
  Let k0 : k <> 0.
  Proof. apply Cmod_gt_0. lra. Qed.
  Lemma recovered_lit : norm2 s f = (Cmod k * Cmod k * norm2 s r)%R /\ lit s f.
  Proof.
    assert (norm2 s f = (Cmod k * Cmod k * norm2 s r)%R) as E. { rewrite (norm2_ext s _ _ F), norm2_scal, moved_norm2; [reflexivity|apply (lit_nonempty _ _ Lr)|exact T0]. }
    split; [exact E|]. apply lit_pos_inv. rewrite E. pose proof (lit_pos _ _ Lr). apply Cmod_gt_0 in k0. apply Rmult_lt_0_compat; [apply Rmult_lt_0_compat|]; assumption.
  Qed.
  Lemma undone : agree s (moved s (back t0) f) (fun p => k * r p).
  Proof. intros p Hp. rewrite (moved_ext s (back t0) _ _ p F), moved_scal. f_equal. apply moved_back; assumption. Qed.
  Lemma exact_misfit : misfit s r f t0 (/ k) = 0%R.
  Proof.
    unfold misfit. rewrite (norm2_ext s _ (fun p => RtoC 0 * r p)) by (intros p Hp; rewrite undone by exact Hp; field; exact k0). rewrite norm2_scal, Cmod_0. ring.
  Qed.
  Lemma recovered : g_error g = Some 0%R /\ (exists z, g_factor g = Finite z /\ Cmod z = Cmod k) /\ (exists h, image s g = Ok h /\ agree s h r) /\ Cmod (ip s r (moved s (back (g_shift g)) f)) = (Cmod k * norm2 s r)%R.
  Proof.
    destruct Best as (e & E & [B0 B1] & T & O & (a & W) & Z). pose proof (lit_pos _ _ Lr) as P. destruct recovered_lit as [Nf Lf]. pose proof (lit_nonempty _ _ Lr) as S.
    assert (e = 0%R) as ->. { pose proof (O t0 (/ k) A) as H. rewrite exact_misfit in H. assert (e * e <= 0)%R by (apply (Rmult_le_reg_r (norm2 s r)); [exact P|lra]). nra. }
    apply Cmod_gt_0 in k0 as k1. pose proof (sqrt_lt_R0 _ P) as Ps. pose proof (lit_pos _ _ Lf) as Pf.
    assert (Cmod (ip s r (moved s (back (g_shift g)) f)) = Cmod k * norm2 s r)%R as I.
    { apply Rle_antisym.
      - apply Rsqr_incr_0_var; [|apply Rmult_le_pos; [apply Cmod_ge_0|lra]]. unfold Rsqr. eapply Rle_trans; [apply cauchy_schwarz|]. rewrite moved_norm2 by (exact S || (rewrite back_length; exact T)). rewrite Nf. right. ring.
      - pose proof (misfit_least s r f (g_shift g) a Lr Lf T) as ML. cbv zeta in ML. rewrite W in ML. set (y := Cmod (ip s r (moved s (back (g_shift g)) f))) in *.
        assert (0 <= y)%R as Y by apply Cmod_ge_0. apply Rsqr_incr_0_var; [|exact Y]. unfold Rsqr.
        apply (Rmult_le_reg_r (/ norm2 s f)); [apply Rinv_0_lt_compat, Pf|]. replace (Cmod k * norm2 s r * (Cmod k * norm2 s r) * / norm2 s f)%R with (norm2 s r) by (rewrite Nf; field; split; lra). unfold Rdiv in ML. lra. }
    assert (Cmod (val s X (g_shift g)) = Cmod k * sqrt (norm2 s r))%R as V.
    { unfold X. rewrite (peak_mod s r f) by assumption. rewrite I. rewrite <- (sqrt_sqrt (norm2 s r)) at 1 by lra. field. lra. }
    rewrite V in Fac. assert (near_zero (Cmod k * sqrt (norm2 s r)) = false) as NZ. { apply near_zero_false. rewrite Rabs_pos_eq; [exact K'|]. apply Rmult_le_pos; lra. }
    rewrite NZ in Fac. destruct Z as [[Z _]|(z & Zf & Z0 & Zm & Zi)]; [rewrite Z in Fac; discriminate|].
    assert (Cmod z = Cmod k) as Zk.
    { rewrite Zf in Fac. injection Fac as ->. unfold reference_norm. rewrite !norm2_mean by exact S.
      assert (RtoC (sqrt (norm2 s r)) <> 0) as N1 by (intros H; apply RtoC_inj in H; lra).
      assert (Cconj (val s X (g_shift g)) <> 0) as N2. { apply Cmod_gt_0. rewrite Cmod_conj, V. apply Rmult_lt_0_compat; lra. }
      rewrite Cmod_div by (apply Cmult_neq_0; assumption). rewrite Cmod_mult, Cmod_conj, V, !Cmod_R, !Rabs_pos_eq by lra. rewrite Nf.
      replace (Cmod k * sqrt (norm2 s r) * sqrt (norm2 s r))%R with (Cmod k * norm2 s r)%R by (rewrite <- (sqrt_sqrt (norm2 s r)) at 1 by lra; ring). field. split; lra. }
    split; [exact E|]. split; [exists z; split; assumption|]. split; [|exact I].
    destruct (Zi ltac:(rewrite Zk; exact K)) as (h & Hh & Ag). exists h. split; [exact Hh|]. intros p Hp. rewrite (Ag p Hp).
    assert (0 * 0 * norm2 s r = 0)%R as Z1 by ring. rewrite Z1 in Zm. pose proof (norm2_zero s _ Zm p Hp) as D. cbn beta in D.
    replace (r p) with (/ z * moved s (back (g_shift g)) f p - (/ z * moved s (back (g_shift g)) f p - r p)) by ring. rewrite D. ring.
  Qed.
  (** With a single peak in the autocorrelation, the displacement and the factor are found. *)
  Hypothesis Peak : same_peak s r (both (back (g_shift g)) t0).
  Lemma pinpointed : same_place s (g_shift g) t0 /\ g_factor g = Finite k.
  Proof.
    pose proof recovered as (_ & (z & Zf & Zk) & _ & I). destruct Best as (e & E & [B0 B1] & T & _). pose proof (lit_pos _ _ Lr) as P. destruct recovered_lit as [Nf Lf]. pose proof (lit_nonempty _ _ Lr) as S.
    apply Cmod_gt_0 in k0 as k1. pose proof (sqrt_lt_R0 _ P) as Ps. set (u := both (back (g_shift g)) t0) in *.
    assert (agree s (moved s (back (g_shift g)) f) (fun p => k * moved s u r p)) as M.
    { intros p Hp. rewrite (moved_ext s _ _ _ p F), moved_scal. f_equal. apply moved_moved; [rewrite back_length|..]; assumption. }
    assert (ip s r (moved s (back (g_shift g)) f) = k * ip s r (moved s u r)) as IP. { rewrite <- ip_scal_r. unfold ip. apply sum_over_ext. intros p Hp. rewrite (M p Hp). reflexivity. }
    assert (same_place s u (map (fun _ => 0%R) s)) as Z. { apply Peak. rewrite IP, Cmod_mult in I. apply (Rmult_eq_reg_l (Cmod k)); [exact I|lra]. }
    split; [apply same_place_diff; assumption|].
    assert (agree s (moved s u r) r) as U. { intros p Hp. apply moved_place0; assumption. }
    assert (ip s r (moved s (back (g_shift g)) f) = k * RtoC (norm2 s r)) as IP'. { rewrite IP. f_equal. rewrite <- ip_self. unfold ip. apply sum_over_ext. intros p Hp. rewrite (U p Hp). reflexivity. }
    rewrite Fac in Zf |- *. destruct (near_zero _) eqn:NZ; [discriminate|]. f_equal. apply near_zero_false in NZ. rewrite Rabs_pos_eq in NZ by apply Cmod_ge_0.
    assert (0 < Cmod (val s X (g_shift g)))%R as V by lra. pose proof (report_factor s r f (g_shift g) Lr Lf T V) as RF. rewrite IP' in RF. rewrite Nf in RF.
    set (y := RtoC (mean2 s (ft s f)) / (Cconj (val s X (g_shift g)) * RtoC (reference_norm s (ft s r)))) in *.
    assert (y <> 0) as Y. { injection Zf as ->. apply Cmod_gt_0. rewrite Zk. lra. }
    change (/ y = Cconj (k * RtoC (norm2 s r)) / RtoC (Cmod k * Cmod k * norm2 s r)) in RF. rewrite RtoC_mult, <- Cmult_conj, Cconj_mult, Cconj_R in RF.
    assert (RtoC (norm2 s r) <> 0) as N1 by (intros H; apply RtoC_inj in H; lra). assert (Cconj k <> 0) as N2 by (intros H; apply k0; rewrite <- (Cconj_conj k), H; apply Cconj_R).
    assert (/ y = / k) as R1. { rewrite RF. field. repeat split; assumption. }
    clearbody y. transitivity (y * (/ k * k)); [rewrite Cinv_l by exact k0; ring|]. rewrite <- R1, Cmult_assoc, Cinv_r by exact Y. ring.
  Qed.
End Recovery.
