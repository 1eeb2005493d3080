(** Displaced references, and where registration fails. *)
From Coq Require Import Reals List Arith Bool ZArith Lia Lra.
From Flocq Require Import Core.
Require Import Verif.Base Verif.CSum Verif.Field Verif.Fourier_Model Verif.Fourier_Spec Verif.Fourier_Proofs Verif.Vec_Model Verif.Modes_Model Verif.Modes_Proofs.
Require Import Verif.Shift_Model Verif.Shift_Spec Verif.Shift_Proofs Verif.Shift_Moves Verif.Register_Model Verif.Register_Spec Verif.Register_Proofs Verif.Register_Whole Verif.Register_Fine Verif.Register_Uses Verif.Cplx.
Import ListNotations.
Local Open Scope R_scope.
Local Open Scope C_scope.

(** ** Whole points *)
Lemma integer_IZR s t : integer_shift s t -> exists d, length d = length s /\ t = map IZR d.
Proof.
  intros [L I]. revert s L. induction I as [|x t (z & ->) I IH]; intros s L; [exists []; auto|]. destruct s as [|n s]; [discriminate|]. injection L as L. destruct (IH s L) as (d & D & ->). exists (z :: d). cbn. auto.
Qed.
Lemma single_same s r t : single_peak s r -> integer_shift s t -> same_peak s r t.
Proof.
  intros S I M. destruct (integer_IZR s t I) as (d & D & ->). specialize (S d D). assert (multiple s d) as H.
  { apply S. rewrite <- M. f_equal. unfold ip. apply sum_over_ext. intros p Hp. rewrite moved_cyclic by (assumption || (symmetry; assumption)). reflexivity. }
  clear -H. induction H as [|n x s d (c & ->) H IH]; cbn; [exact I|]. split; [exists c; rewrite mult_IZR, <- INR_IZR_INZ; ring|exact IH].
Qed.
Lemma integer_both s t u : integer_shift s t -> integer_shift s u -> integer_shift s (both (back t) u).
Proof.
  intros [L I] [L' I']. split; [rewrite both_length; rewrite back_length; congruence|]. clear L L'. revert u I'. induction I as [|x t (z & ->) I IH]; intros u I'; [constructor|]. inversion I' as [|y u' (z' & ->) I'']; subst; cbn; constructor; [|apply IH; assumption].
  exists (- z + z')%Z. rewrite plus_IZR, opp_IZR. reflexivity.
Qed.
Lemma integer_map s d : length d = length s -> integer_shift s (map IZR d).
Proof. intros L. split; [rewrite map_length; exact L|]. apply Forall_forall. intros x Hx. apply in_map_iff in Hx as (z & <- & _). exists z. reflexivity. Qed.
Lemma reported_whole s : forall l d, inside s l -> length d = length s -> same_place s (whole_shift s l) (map IZR d) -> whole_shift s l = reported s d.
Proof.
  induction s as [|n s IH]; intros l d I L P; inversion I as [|? i ? l' Hi Hl]; subst; destruct d as [|z d]; try discriminate; [reflexivity|]. injection L as L. unfold whole_shift, reported in *. cbn [combine map same_place] in *. destruct P as [(c & P) P']. f_equal; [|apply IH; assumption]. clear IH P'.
  assert (z mod Z.of_nat n = Z.of_nat i)%Z as ->.
  { assert (exists e, z = Z.of_nat i + e * Z.of_nat n)%Z as (e & ->).
    { destruct (n / 2 <? i)%nat; rewrite !INR_IZR_INZ, <- mult_IZR, <- ?plus_IZR in P; apply eq_IZR in P; [exists (1 - c)%Z|exists (- c)%Z]; nia. }
    rewrite Z.mod_add by lia. apply Z.mod_small. lia. }
  change 2%Z with (Z.of_nat 2). rewrite <- Nat2Z.inj_div. destruct (Nat.ltb_spec (n / 2) i); destruct (Z.ltb_spec (Z.of_nat (n / 2)) (Z.of_nat i)); try lia; rewrite ?plus_IZR, <- !INR_IZR_INZ; reflexivity.
Qed.
Lemma located_whole s r f z g : lit s r -> z <> 0%Z -> register s (Some f) (Some r) (Some (IZR z)) = Ok g -> exists l, inside s l /\ g_shift g = whole_shift s l.
Proof.
  intros L Z. unfold register, register_ft, locate, whole_location. rewrite whole_IZR. destruct (Req_EM_T (IZR z) 0) as [E|_]; [exfalso; apply Z, eq_IZR, E|]. cbn [bind]. intros E. injection E as <-. cbn [g_shift]. eexists. split; [|reflexivity]. apply argmax_spec, (lit_nonempty _ _ L).
Qed.
Lemma whole_range s : forall l, inside s l -> Forall2 (fun n x => 0 <= x < 2 * INR n)%R s (whole_shift s l).
Proof.
  induction s as [|n s IH]; intros l I; inversion I as [|? i ? l' Hi Hl]; subst; [constructor|]. unfold whole_shift. cbn [combine map]. constructor; [|apply IH; assumption]. apply lt_INR in Hi. pose proof (pos_INR i). destruct (_ <? _)%nat; lra.
Qed.
(** A displaced reference is found. *)
Lemma recovered_whole s r k d z : lit s r -> at_most s 1 -> (/ 100000000 < Cmod k)%R -> (/ 100000000 < Cmod k * sqrt (norm2 s r))%R -> length d = length s -> z <> 0%Z ->
  exists g, register s (Some (fun p => k * cyclic s d r p)) (Some r) (Some (IZR z)) = Ok g /\ g_error g = Some 0%R /\ (exists h, image s g = Ok h /\ agree s h r) /\
    (single_peak s r -> g_shift g = reported s d /\ g_factor g = Finite k).
Proof.
  intros L B K K' D Z. set (f := fun p => k * cyclic s d r p). pose proof (integer_map s d D) as I0. assert (agree s f (fun p => k * moved s (map IZR d) r p)) as F. { intros p Hp. unfold f. rewrite moved_cyclic by assumption. reflexivity. }
  pose proof (recovered_lit s r f k (map IZR d) L K (proj1 I0) F) as [_ Lf]. destruct (best_whole s r f z L Lf Z B) as (g & G & I & H & Fa). exists g. split; [exact G|].
  destruct (recovered s r f k (map IZR d) (integer_shift s) g L K K' (proj1 I0) I0 F H Fa) as (E & _ & Im & _). split; [exact E|]. split; [exact Im|]. intros S.
  destruct (pinpointed s r f k (map IZR d) (integer_shift s) g L K K' (proj1 I0) I0 F H Fa) as [P Q]; [apply single_same; [exact S|apply integer_both; assumption]|]. split; [|exact Q].
  destruct (located_whole s r f z g L Z G) as (l & Hl & El). rewrite El in *. apply reported_whole; assumption.
Qed.

(** ** Fractions of points *)
Lemma multiples_both s x t u : multiples s x t -> multiples s x u -> multiples s x (both (back t) u).
Proof.
  intros [L I] [L' I']. split; [rewrite both_length; rewrite back_length; congruence|]. clear L L'. revert u I'. induction I as [|y t (z & ->) I IH]; intros u I'; [constructor|]. inversion I' as [|y u' (z' & ->) I'']; subst; cbn; constructor; [|apply IH; assumption].
  exists (- z + z')%Z. rewrite plus_IZR, opp_IZR. ring.
Qed.
Lemma half_multiples s m t : (0 < m)%Z -> half_shift s t -> multiples s (/ IZR (2 * m)) t.
Proof. intros M [L I]. split; [exact L|]. eapply Forall_impl; [|exact I]. intros x (z & ->). exists (z * m)%Z. apply IZR_lt in M. rewrite !mult_IZR. field. lra. Qed.
Lemma recovered_fine s r k t m : lit s r -> (length s <= 2)%nat -> (1 < m < 50000000)%Z -> at_most s (/ IZR (2 * m)) -> (/ 100000000 < Cmod k)%R -> (/ 100000000 < Cmod k * sqrt (norm2 s r))%R -> half_shift s t ->
  exists g, register s (Some (fun p => k * moved s t r p)) (Some r) (Some (/ IZR (2 * m))%R) = Ok g /\ g_error g = Some 0%R /\ (exists h, image s g = Ok h /\ agree s h r) /\
    ((forall t', multiples s (/ IZR (2 * m)) t' -> same_peak s r t') -> same_place s (g_shift g) t /\ g_factor g = Finite k).
Proof.
  intros L D M B K K' H0. set (f := fun p => k * moved s t r p). assert (agree s f (fun p => k * moved s t r p)) as F by (intros p _; reflexivity).
  pose proof (recovered_lit s r f k t L K (proj1 H0) F) as [_ Lf]. destruct (best_fine s r f m L Lf D M B) as (g & G & I & H & Fa). exists g. split; [exact G|].
  destruct (recovered s r f k t (half_shift s) g L K K' (proj1 H0) H0 F H Fa) as (E & _ & Im & _). split; [exact E|]. split; [exact Im|]. intros S.
  apply (pinpointed s r f k t (half_shift s) g L K K' (proj1 H0) H0 F H Fa). apply S. destruct H as (e & _ & _ & T & _). apply multiples_both; [split; [exact T|exact I]|apply half_multiples; [lia|exact H0]].
Qed.

(** ** Weak subjects *)
Lemma ift_0 s F : (forall q, F q = 0) -> forall p, ift s F p = 0.
Proof. intros H p. unfold ift. rewrite (sum_over_ext s _ (fun q => RtoC 0 * RtoC 0)) by (intros; rewrite H; ring). rewrite sum_over_scal. unfold Cdiv. ring. Qed.
Lemma blank_infinite s g : g_factor g = Infinite -> registered_hat g = None -> (exists w, original_hat g = Some w) -> length (g_shift g) = length s -> Forall2 resolved_shift s (g_shift g) -> blank s g.
Proof.
  intros F R (w & O) L S. unfold blank, image, image_ft. rewrite R, O, F. cbn [factor_vanishes]. change (map Ropp (g_shift g)) with (back (g_shift g)). destruct (roll_ft_full s (back (g_shift g)) w) as (G & -> & _); [rewrite back_length; exact L|apply resolved_back, S|].
  cbn [rmap]. eexists. split; [reflexivity|]. intros p Hp. rewrite L, right_mask_full, part_ift_true by exact Hp. apply ift_0. reflexivity.
Qed.
Lemma blank_small s g z : g_factor g = Finite z -> (Cmod z <= / 100000000)%R -> registered_hat g = None -> (exists w, original_hat g = Some w) -> length (g_shift g) = length s -> blank s g.
Proof.
  intros F Z R (w & O) L. unfold blank, image, image_ft. rewrite R, O, F. cbn [factor_vanishes]. replace (near_zero (Cmod z)) with true by (symmetry; apply near_zero_true; rewrite Rabs_pos_eq; [exact Z|apply Cmod_ge_0]).
  cbn [rmap]. eexists. split; [reflexivity|]. intros p Hp. rewrite L, right_mask_full, part_ift_true by exact Hp. apply ift_0. reflexivity.
Qed.
Lemma register_state s f r p g : register s (Some f) (Some r) p = Ok g -> registered_hat g = None /\ original_hat g = Some (ft s f).
Proof. unfold register, register_ft. destruct (locate _ _ _) as [[t c]|]; cbn [bind]; [|discriminate]. intros E. injection E as <-. split; reflexivity. Qed.
Lemma weak_whole s r (k : C) d z : lit s r -> at_most s 1 -> k <> 0 -> (Cmod k <= / 100000000 \/ Cmod k * sqrt (norm2 s r) <= / 100000000)%R -> length d = length s -> z <> 0%Z ->
  exists g, register s (Some (fun p => k * cyclic s d r p)) (Some r) (Some (IZR z)) = Ok g /\ g_error g = Some 0%R /\ blank s g.
Proof.
  intros L B k0 W D Z. set (f := fun p => k * cyclic s d r p). pose proof (integer_map s d D) as I0. assert (agree s f (fun p => k * moved s (map IZR d) r p)) as F. { intros p Hp. unfold f. rewrite moved_cyclic by assumption. reflexivity. }
  pose proof (lit_nonempty _ _ L) as S. pose proof (lit_pos _ _ L) as P. apply Cmod_gt_0 in k0 as K. pose proof (sqrt_lt_R0 _ P) as Ps.
  assert (norm2 s f = (Cmod k * Cmod k * norm2 s r)%R) as N. { rewrite (norm2_ext s _ _ F), norm2_scal, moved_norm2; [reflexivity|exact S|apply I0]. }
  assert (lit s f) as Lf. { apply lit_pos_inv. rewrite N. apply Rmult_lt_0_compat; [apply Rmult_lt_0_compat|]; assumption. }
  destruct (best_whole s r f z L Lf Z B) as (g & G & I & (e & E & [B0 B1] & T & O & (a & Wt) & Fin) & Fa). exists g. split; [exact G|]. destruct (register_state s f r _ g G) as [G1 G2].
  assert (Forall2 resolved_shift s (g_shift g)) as R. { apply (resolved_multiple s (g_shift g) 1); [lra|exact B|exact S|exact T|]. eapply Forall_impl; [|apply I]. intros x (y & ->). exists y. ring. }
  assert (e = 0%R) as ->.
  { pose proof (O (map IZR d) (/ k) I0) as H. replace (misfit s r f (map IZR d) (/ k)) with 0%R in H.
    - assert (e * e <= 0)%R by (apply (Rmult_le_reg_r (norm2 s r)); [exact P|lra]). nra.
    - symmetry. unfold misfit. rewrite (norm2_ext s _ (fun p => RtoC 0 * r p)); [rewrite norm2_scal, Cmod_0; ring|]. intros p Hp. rewrite (moved_ext s _ _ _ p F), moved_scal, (moved_back s (map IZR d) r (proj1 I0) p Hp). field. exact k0. }
  split; [exact E|]. cbv zeta in Fa. destruct (near_zero (Cmod (val s (cross_ft s (ft s r) (ft s f)) (g_shift g)))) eqn:NZ.
  - apply blank_infinite; eauto.
  - destruct W as [W|W].
    + (* the factor has the modulus of k *)
      set (V := val s (cross_ft s (ft s r) (ft s f)) (g_shift g)) in *. apply near_zero_false in NZ. rewrite Rabs_pos_eq in NZ by apply Cmod_ge_0.
      assert (Cmod V = Cmod k * sqrt (norm2 s r))%R as HV.
      { unfold V. rewrite (peak_mod s r f) by assumption. set (y := Cmod (ip s r (moved s (back (g_shift g)) f))).
        assert (y = Cmod k * norm2 s r)%R as ->; [|rewrite <- (sqrt_sqrt (norm2 s r)) at 1 by lra; field; lra]. apply Rle_antisym.
        - apply Rsqr_incr_0_var; [|apply Rmult_le_pos; [apply Cmod_ge_0|lra]]. unfold Rsqr, y. eapply Rle_trans; [apply cauchy_schwarz|]. rewrite moved_norm2 by (exact S || (rewrite back_length; exact T)). rewrite N. right. ring.
        - pose proof (misfit_least s r f (g_shift g) a L Lf T) as ML. cbv zeta in ML. rewrite Wt in ML. fold y in ML. apply Rsqr_incr_0_var; [|apply Cmod_ge_0]. unfold Rsqr.
          pose proof (lit_pos _ _ Lf) as Pf. apply (Rmult_le_reg_r (/ norm2 s f)); [apply Rinv_0_lt_compat, Pf|]. replace (Cmod k * norm2 s r * (Cmod k * norm2 s r) * / norm2 s f)%R with (norm2 s r) by (rewrite N; field; split; lra). unfold Rdiv in ML. lra. }
      eapply (blank_small s g); eauto. unfold reference_norm. rewrite !norm2_mean by exact S.
      assert (RtoC (sqrt (norm2 s r)) <> 0) as N1 by (intros H; apply RtoC_inj in H; lra). assert (Cconj V <> 0) as N2 by (apply Cmod_gt_0; rewrite Cmod_conj; lra).
      rewrite Cmod_div by (apply Cmult_neq_0; assumption). rewrite Cmod_mult, Cmod_conj, HV, !Cmod_R, !Rabs_pos_eq by (try lra; apply norm2_nonneg). rewrite N.
      replace (Cmod k * sqrt (norm2 s r) * sqrt (norm2 s r))%R with (Cmod k * norm2 s r)%R by (rewrite <- (sqrt_sqrt (norm2 s r)) at 1 by lra; ring). replace (Cmod k * Cmod k * norm2 s r / (Cmod k * norm2 s r))%R with (Cmod k) by (field; split; lra). exact W.
    + exfalso. apply near_zero_false in NZ. rewrite Rabs_pos_eq in NZ by apply Cmod_ge_0. pose proof (peak_bound s r f (g_shift g) L Lf T) as PB. rewrite norm2_mean in PB by exact S.
      rewrite N in PB. replace (Cmod k * Cmod k * norm2 s r)%R with (Cmod k * Cmod k * norm2 s r)%R in PB by ring. rewrite sqrt_mult in PB by (try apply Rle_0_sqr; lra). rewrite sqrt_square in PB by lra.
      set (v := Cmod (val s (cross_ft s (ft s r) (ft s f)) (g_shift g))) in *. assert (v <= Cmod k * sqrt (norm2 s r))%R; [|lra].
      assert (0 < Cmod k * sqrt (norm2 s r))%R as Q by (apply Rmult_lt_0_compat; assumption). apply (Rmult_le_reg_r (/ (Cmod k * sqrt (norm2 s r)))); [apply Rinv_0_lt_compat, Q|]. rewrite Rinv_r by lra. exact PB.
Qed.

(** ** Other failures *)
(** No error is reported for a subject that is zero. *)
Lemma zero_subject s r g p : lit s r -> register s (Some (fun _ => RtoC 0)) (Some r) p = Ok g -> g_error g = None.
Proof.
  intros L. unfold register, register_ft. destruct (locate _ _ _) as [[t c]|]; cbn [bind]; [|discriminate]. intros E. injection E as <-. cbn [g_error]. pose proof (lit_nonempty _ _ L) as S.
  rewrite norm2_mean by exact S. replace (norm2 s (fun _ => RtoC 0)) with 0%R; [rewrite sqrt_0; destruct (Req_EM_T 0 0); [reflexivity|contradiction]|].
  rewrite (norm2_ext s _ (fun p => RtoC 0 * RtoC 0)) by (intros; ring). rewrite norm2_scal, Cmod_0. ring.
Qed.
(** Three dimensions: the matrix product does not fit. *)
Lemma zoom_3d n0 n1 n2 pixels precision offset X : (n0 <> n1 \/ n2 <> pixels)%nat -> zoom [n0; n1; n2] pixels precision offset X = Err ValueError.
Proof.
  intros H. unfold zoom. cbn [length seq fold_left bind]. unfold zoom_axis at 1. cbn [fst snd swap_first set_nth nth length Nat.sub]. destruct (Nat.eqb_spec n1 n0) as [->|N]; cbn [bind]; [|reflexivity].
  unfold zoom_axis at 1. cbn [fst snd swap_first set_nth nth length Nat.sub]. rewrite Nat.eqb_refl. cbn [bind]. unfold zoom_axis. cbn [fst snd swap_first set_nth nth length Nat.sub]. destruct (Nat.eqb_spec pixels n2) as [->|]; [|reflexivity]. destruct H as [H|H]; contradiction.
Qed.
Lemma register_3d n0 n1 n2 f r : (n0 <> n1 \/ n2 <> 192)%nat -> register [n0; n1; n2] f r None = Err ValueError.
Proof.
  intros H. unfold register, register_ft, locate. rewrite whole_fraction by lra. destruct (coarse_location _ _) as [t c]. unfold Rltb. destruct (Rlt_dec (1 / 128) (1 / 2)); [|lra]. unfold refine.
  replace (Zceil (3 / 2 / (1 / 128))) with 192%Z by (symmetry; replace (3 / 2 / (1 / 128))%R with (IZR 192) by field; apply Zceil_IZR). rewrite zoom_3d; [reflexivity|]. change (Nat.max 1 (Z.to_nat 192)) with 192%nat. exact H.
Qed.
(** A very high precision counts as whole points. *)
Lemma whole_small x : (0 < x <= / 100000000)%R -> whole x = true.
Proof.
  intros B. unfold whole. apply near_zero_true. assert (ZnearestE x = 0%Z) as -> by (apply Znearest_imp; rewrite Rminus_0_r, Rabs_pos_eq; lra). rewrite Rminus_0_r, Rabs_pos_eq; lra.
Qed.
Lemma register_small s f r x : (0 < x <= / 100000000)%R -> register s f r (Some x) = register s f r (Some 1%R).
Proof.
  intros B. unfold register, register_ft, locate, whole_location. rewrite (whole_small x B), (whole_IZR 1). destruct (Req_EM_T x 0) as [E|_]; [lra|]. destruct (Req_EM_T 1 0) as [E|_]; [lra|]. reflexivity.
Qed.
