(** Registration with a given precision: the best match near the best half point, and an example with a better match elsewhere. *)
From Coq Require Import Reals List Arith Bool ZArith Lia Lra Psatz.
From Flocq Require Import Core.
Require Import Verif.Base Verif.CSum Verif.Field Verif.Fourier_Model Verif.Fourier_Spec Verif.Fourier_Proofs Verif.Vec_Model Verif.Modes_Model Verif.Modes_Proofs.
Require Import Verif.Shift_Model Verif.Shift_Spec Verif.Shift_Proofs Verif.Shift_Moves Verif.Register_Model Verif.Register_Spec Verif.Register_Proofs Verif.Register_Whole Verif.Register_Fine Verif.Register_Uses Verif.Cplx.
Import ListNotations.
Local Open Scope R_scope.
Local Open Scope C_scope.

(** ** The window *)
Lemma window_size precision m : (0 < m)%Z -> precision = (/ IZR (2 * m))%R -> Zceil (3 / 2 / precision) = (3 * m)%Z.
Proof. intros M P. assert (0 < IZR m)%R as Pm by (apply IZR_lt; exact M). rewrite P. replace (3 / 2 / / IZR (2 * m))%R with (IZR (3 * m)) by (rewrite !mult_IZR; field; lra). apply Zceil_IZR. Qed.
Lemma half_floor m : Zfloor (IZR (3 * m) / 2) = (3 * m / 2)%Z.
Proof. apply (Zfloor_div (3 * m) 2). discriminate. Qed.
Lemma window_near s precision m start t : (0 < m)%Z -> precision = (/ IZR (2 * m))%R -> half_shift s start -> multiples s precision t -> close (3 / 4) t start ->
  exists l, inside (repeat (Nat.max 1 (Z.to_nat (Zceil (3 / 2 / precision)))) (length s)) l /\ window precision start l = t.
Proof.
  intros M P [L H] [Lt Ht] N. rewrite (window_size precision m M P). assert (0 < IZR m)%R as Pm by (apply IZR_lt; exact M).
  unfold window. rewrite (window_size precision m M P), half_floor. unfold close in N. clear Lt. revert s L H Ht. induction N as [|x y t start Hd N IH]; intros s L H Ht; destruct s as [|n s]; try discriminate; [exists []; split; [constructor|reflexivity]|].
  inversion H as [|? ? (z & ->) H']; subst y start0 || idtac. inversion Ht as [|? ? (w & ->) Ht']. subst.
  injection L as L. destruct (IH s L H' Ht') as (l & I & E). set (c := (3 * m / 2)%Z) in *. assert (3 * m - 1 <= 2 * c <= 3 * m)%Z as Bc by (unfold c; pose proof (Z.div_mod (3 * m) 2 ltac:(lia)); pose proof (Z.mod_pos_bound (3 * m) 2 ltac:(lia)); lia).
  assert (- (3 * m) < 2 * (w - z * m) < 3 * m)%Z as B.
  { apply Rabs_def2 in Hd as [H1 H2]. split; apply lt_IZR; rewrite ?opp_IZR, !mult_IZR, ?minus_IZR, !mult_IZR;
    apply (Rmult_lt_reg_r (/ (4 * IZR m))); try (apply Rinv_0_lt_compat; lra); rewrite mult_IZR in *.
    - replace (- (3 * IZR m) * / (4 * IZR m))%R with (- (3 / 4))%R by (field; lra). replace (2 * (IZR w - IZR z * IZR m) * / (4 * IZR m))%R with (IZR w * / (2 * IZR m) - IZR z / 2)%R by (field; lra). lra.
    - replace (3 * IZR m * / (4 * IZR m))%R with (3 / 4)%R by (field; lra). replace (2 * (IZR w - IZR z * IZR m) * / (4 * IZR m))%R with (IZR w * / (2 * IZR m) - IZR z / 2)%R by (field; lra). lra. }
  exists (Z.to_nat (c - (w - z * m)) :: l). cbn [length repeat combine map]. split; [constructor; [lia|exact I]|]. rewrite E. f_equal.
  rewrite (rounded_half _ m z M eq_refl), INR_IZR_INZ, Z2Nat.id by lia. rewrite !minus_IZR, !mult_IZR. field. lra.
Qed.
Lemma window_reach precision m start l : (0 < m)%Z -> precision = (/ IZR (2 * m))%R -> List.Forall (fun d => exists z, d = (IZR z / 2)%R) start ->
  inside (repeat (Nat.max 1 (Z.to_nat (Zceil (3 / 2 / precision)))) (length start)) l -> Forall2 (fun x y => (Rabs (x - y) <= 3 / 4)%R) (window precision start l) start.
Proof.
  intros M P H. unfold window. rewrite (window_size precision m M P), half_floor. assert (0 < IZR m)%R as Pm by (apply IZR_lt; exact M). revert l. remember (Nat.max 1 (Z.to_nat (3 * m))) as w eqn:Hw.
  induction H as [|d start (z & ->) H IH]; intros l I; cbn [length repeat] in I; inversion I as [|? i ? l' Hi I']; subst l; cbn [combine map]; constructor; [|apply IH; exact I']. rewrite P.
  rewrite (rounded_half _ m z M eq_refl). set (c := (3 * m / 2)%Z) in *. assert (3 * m - 1 <= 2 * c <= 3 * m)%Z as Bc by (unfold c; pose proof (Z.div_mod (3 * m) 2 ltac:(lia)); pose proof (Z.mod_pos_bound (3 * m) 2 ltac:(lia)); lia).
  replace (IZR z / 2 + (- INR i + IZR c) * / IZR (2 * m) - IZR z / 2)%R with (IZR (2 * (c - Z.of_nat i)) / (4 * IZR m))%R by (rewrite !mult_IZR, minus_IZR, <- INR_IZR_INZ; field; lra).
  assert (- (3 * m) <= 2 * (c - Z.of_nat i) <= 3 * m)%Z as [B1 B2] by lia. apply IZR_le in B1, B2. rewrite opp_IZR, mult_IZR in B1. rewrite (mult_IZR 3 m) in B2. apply Rabs_le. split.
  - apply (Rmult_le_reg_r (4 * IZR m)); [lra|]. unfold Rdiv. rewrite Rmult_assoc, Rinv_l, Rmult_1_r by lra. lra.
  - apply (Rmult_le_reg_r (4 * IZR m)); [lra|]. unfold Rdiv. rewrite Rmult_assoc, Rinv_l, Rmult_1_r by lra. lra.
Qed.

(** ** The best match in the window *)
Lemma compare_misfit s r f t t' : lit s r -> lit s f -> length t = length s -> length t' = length s -> let X := cross_ft s (ft s r) (ft s f) in
  (Cmod (val s X t') <= Cmod (val s X t))%R <-> (forall a', exists a, (misfit s r f t a <= misfit s r f t' a')%R).
Proof.
  intros Lr Lf T T' X. unfold X. rewrite !(peak_mod s r f) by assumption. pose proof (sqrt_lt_R0 _ (lit_pos _ _ Lr)) as P. pose proof (lit_pos _ _ Lf) as P'.
  set (c := ip s r (moved s (back t) f)). set (c' := ip s r (moved s (back t') f)).
  assert ((Cmod c' / sqrt (norm2 s r) <= Cmod c / sqrt (norm2 s r))%R <-> (Cmod c' <= Cmod c)%R) as ->.
  { split; intros H; [apply (Rmult_le_reg_r (/ sqrt (norm2 s r))); [apply Rinv_0_lt_compat, P|exact H]|apply Rmult_le_compat_r; [left; apply Rinv_0_lt_compat, P|exact H]]. }
  pose proof (Cmod_ge_0 c) as Pc. pose proof (Cmod_ge_0 c') as Pc'. split.
  - intros H a'. exists (Cconj c / RtoC (norm2 s f)). unfold c at 1. rewrite misfit_best by assumption. fold c. eapply Rle_trans; [|apply (misfit_least s r f t' a' Lr Lf T')]. fold c'.
    apply Rplus_le_compat_l, Ropp_le_contravar, Rmult_le_compat_r; [left; apply Rinv_0_lt_compat, P'|]. apply Rmult_le_compat; assumption.
  - intros H. destruct (H (Cconj c' / RtoC (norm2 s f))) as (a & Ha). unfold c' at 1 in Ha. rewrite misfit_best in Ha by assumption. fold c' in Ha. pose proof (misfit_least s r f t a Lr Lf T) as B. fold c in B. cbv zeta in B.
    assert (Cmod c' * Cmod c' / norm2 s f <= Cmod c * Cmod c / norm2 s f)%R as Q by lra.
    assert (Cmod c' * Cmod c' <= Cmod c * Cmod c)%R as Q'. { apply (Rmult_le_reg_r (/ norm2 s f)); [apply Rinv_0_lt_compat, P'|exact Q]. } nra.
Qed.
Theorem best_near s r f m : lit s r -> lit s f -> (length s <= 2)%nat -> (1 < m < 50000000)%Z -> let precision := (/ IZR (2 * m))%R in at_most s precision ->
  exists g t0, register s (Some f) (Some r) (Some precision) = Ok g /\ multiples s precision (g_shift g) /\ optimal s r f (half_shift s) t0 /\
    Forall2 (fun x y => (Rabs (x - y) <= 3 / 4)%R) (g_shift g) t0 /\ best s r f (fun t => half_shift s t \/ multiples s precision t /\ close (3 / 4) t t0) g.
Proof.
  intros Lr Lf D [M1 M2] precision B. pose proof (lit_nonempty _ _ Lr) as S. assert (1 < IZR m)%R as P1 by (apply (IZR_lt 1); exact M1). assert (IZR m < 50000000)%R as P2 by (apply IZR_lt; exact M2).
  assert (0 < precision < 1 / 2)%R as P. { unfold precision. rewrite mult_IZR. split; [apply Rinv_0_lt_compat; lra|]. replace (1 / 2)%R with (/ 2)%R by field. apply Rinv_lt_contravar; lra. }
  assert (/ 100000000 < precision)%R as P3. { unfold precision. rewrite mult_IZR. apply Rinv_lt_contravar; lra. }
  set (X := cross_ft s (ft s r) (ft s f)).
  destruct (coarse_best s X S) as (t0 & E0 & H & Best). destruct (refine_best s X precision t0 D S (proj1 H) (proj1 P)) as (l & I & E & Rb). set (t := window precision t0 l) in *.
  pose proof (inside_length _ _ I) as Ll. rewrite repeat_length in Ll.
  assert (L : locate s X precision = Ok (t, val s X t)).
  { unfold locate. rewrite (whole_fraction precision ltac:(lra) P3), E0. unfold Rltb. destruct (Rlt_dec precision (1 / 2)) as [_|N]; [exact E|lra]. }
  assert (T : length t = length s) by (unfold t, window; rewrite map_length, combine_length, Ll, (proj1 H), Nat.min_id; reflexivity).
  assert (F : List.Forall (fun d => exists z, d = (IZR z * precision)%R) t).
  { unfold t, window. apply Forall_forall. intros x Hx. apply in_map_iff in Hx as ((d & i) & <- & _). unfold rounded. exists (ZnearestE (d / precision) + (- Z.of_nat i + Zfloor (IZR (Zceil (3 / 2 / precision)) / 2)))%Z. rewrite plus_IZR, plus_IZR, opp_IZR, <- INR_IZR_INZ. ring. }
  pose proof (resolved_multiple s t precision P3 B S T F) as R.
  set (allowed := fun t' => half_shift s t' \/ multiples s precision t' /\ close (3 / 4) t' t0).
  assert (A : forall t', allowed t' -> length t' = length s) by (intros t' [[Q _]|[[Q _] _]]; exact Q).
  assert (M : forall t', allowed t' -> (Cmod (val s X t') <= Cmod (val s X t))%R).
  { intros t' [Q|[Q N]].
    - destruct (window_start s precision m t0 ltac:(lia) eq_refl H) as (l0 & I0 & E1). eapply Rle_trans; [apply Best, Q|]. rewrite <- E1 at 1. apply Rb, I0.
    - destruct (window_near s precision m t0 t' ltac:(lia) eq_refl H Q N) as (l0 & I0 & E1). rewrite <- E1. apply Rb, I0. }
  destruct (best_located s r f allowed precision t Lr Lf T R A L M) as (g & G & St & Hb & _). exists g, t0. rewrite St.
  refine (conj G (conj (conj T F) (conj (conj H _) (conj _ Hb)))).
  - intros t' a' Ht'. apply (compare_misfit s r f t0 t' Lr Lf (proj1 H) (proj1 Ht')). apply Best, Ht'.
  - apply (window_reach precision m t0 l ltac:(lia) eq_refl (proj2 H)). rewrite (proj1 H). exact I.
Qed.

(** ** A better match elsewhere *)
Definition spot3 : sfield := fun p => match p with [0]%nat => RtoC 1 | _ => RtoC 0 end.
Definition hat3 : sfield := fun q => match q with [0]%nat => ((-1)%R, (-2)%R) | [1]%nat => (4%R, (-4)%R) | _ => RtoC 3 end.
Definition wave3 : sfield := ift [3]%nat hat3.
Definition height (x : R) : R := ((7 * cos x + 4 * sin x - 1) * (7 * cos x + 4 * sin x - 1) + (sin x - 4 * cos x - 2) * (sin x - 4 * cos x - 2))%R.
Lemma spot_lit : lit [3]%nat spot3.
Proof. exists [0]%nat. split; [constructor; [lia|constructor]|]. cbn. intros H. apply RtoC_inj in H. lra. Qed.
Lemma spot_norm : norm2 [3]%nat spot3 = 1%R.
Proof. unfold norm2. cbn. rewrite Cmod_0, Cmod_1. ring. Qed.
Lemma cross3 q : inside [3]%nat q -> cross_ft [3]%nat (ft [3]%nat spot3) (ft [3]%nat wave3) q = hat3 q.
Proof.
  intros Hq. unfold cross_ft, reference_conj, reference_norm. rewrite norm2_mean by (apply (lit_nonempty _ _ spot_lit)). rewrite spot_norm, sqrt_1. unfold wave3. rewrite (ft_ift [3]%nat hat3 q Hq).
  replace (ft [3]%nat spot3 q) with (RtoC 1); [rewrite Cconj_R; field; intros H; apply RtoC_inj in H; lra|].
  inversion Hq as [|n i s' q' Hi Hq']; subst. inversion Hq'; subst. unfold ft. cbn [sum_over csum spot3 phase]. cbn [INR]. rewrite Rmult_0_l. replace (- (2 * PI * 0 / (1 + 1 + 1) + 0))%R with 0%R by (unfold Rdiv; ring). rewrite cis_0. ring.
Qed.
Lemma height_val t : let X := cross_ft [3]%nat (ft [3]%nat spot3) (ft [3]%nat wave3) in (9 * (Cmod (val [3]%nat X [t]) * Cmod (val [3]%nat X [t])) = height (2 * PI * t / 3))%R.
Proof.
  intros X. assert (E : val [3]%nat X [t] = ((-1)%R, (-2)%R) / RtoC 3 + (4%R, (-4)%R) * cis (2 * PI * t / 3) / RtoC 3 + cis (- (2 * PI * t / 3))).
  { unfold val. rewrite (sum_over_ext [3]%nat _ (fun q => hat3 q * cis (angle [3]%nat q [t]))) by (intros q Hq; unfold X; rewrite cross3 by exact Hq; reflexivity).
    cbn [sum_over csum hat3 angle points fold_right k_index Nat.mul Nat.add]. change (k_index 3 0) with 0%Z. change (k_index 3 1) with 1%Z. change (k_index 3 2) with (-1)%Z.
    replace (INR 3) with 3%R by (cbn; ring). replace (2 * PI * 0 * t / 3 + 0)%R with 0%R by (unfold Rdiv; ring). replace (2 * PI * 1 * t / 3 + 0)%R with (2 * PI * t / 3)%R by field.
    replace (2 * PI * -1 * t / 3 + 0)%R with (- (2 * PI * t / 3))%R by field. rewrite cis_0. field. intros H. apply RtoC_inj in H. lra. }
  rewrite E. set (x := (2 * PI * t / 3)%R). unfold cis. rewrite cos_neg, sin_neg. rewrite Cmod_sq. unfold height. cbn. field.
Qed.
(** Twelfths of a circle. *)
Lemma twelfths : let q := sqrt 3 in forall k, (-5 <= k <= 6)%Z -> exists c s, cos (IZR k * (PI / 6)) = c /\ sin (IZR k * (PI / 6)) = s /\
  (k = (-5)%Z /\ c = (- (q / 2))%R /\ s = (- (1 / 2))%R \/
   k = (-4)%Z /\ c = (- (1 / 2))%R /\ s = (- (q / 2))%R \/
   k = (-3)%Z /\ c = (0)%R /\ s = (- (1))%R \/
   k = (-2)%Z /\ c = (1 / 2)%R /\ s = (- (q / 2))%R \/
   k = (-1)%Z /\ c = (q / 2)%R /\ s = (- (1 / 2))%R \/
   k = (0)%Z /\ c = (1)%R /\ s = (0)%R \/
   k = (1)%Z /\ c = (q / 2)%R /\ s = (1 / 2)%R \/
   k = (2)%Z /\ c = (1 / 2)%R /\ s = (q / 2)%R \/
   k = (3)%Z /\ c = (0)%R /\ s = (1)%R \/
   k = (4)%Z /\ c = (- (1 / 2))%R /\ s = (q / 2)%R \/
   k = (5)%Z /\ c = (- (q / 2))%R /\ s = (1 / 2)%R \/
   k = (6)%Z /\ c = (- (1))%R /\ s = (0)%R).
Proof.
  intros q k Hk. assert (Q : (q * q = 3)%R) by (apply sqrt_sqrt; lra).
  assert (St : forall k c s, cos (IZR k * (PI / 6)) = c /\ sin (IZR k * (PI / 6)) = s ->
    (cos (IZR (k + 1) * (PI / 6)) = c * (q / 2) - s * (1 / 2) /\ sin (IZR (k + 1) * (PI / 6)) = s * (q / 2) + c * (1 / 2))%R).
  { intros k0 c s [<- <-]. rewrite plus_IZR. replace ((IZR k0 + 1) * (PI / 6))%R with (IZR k0 * (PI / 6) + PI / 6)%R by ring. rewrite cos_plus, sin_plus, cos_PI6, sin_PI6. unfold q. split; reflexivity. }
  assert (Z0 : cos (IZR 0 * (PI / 6)) = 1%R /\ sin (IZR 0 * (PI / 6)) = 0%R) by (rewrite Rmult_0_l, cos_0, sin_0; split; reflexivity).
  assert (Z1 : cos (IZR 1 * (PI / 6)) = (q / 2)%R /\ sin (IZR 1 * (PI / 6)) = (1 / 2)%R) by (destruct (St 0%Z _ _ Z0) as [A B]; split; [rewrite (A : cos (IZR 1 * (PI / 6)) = _)|rewrite (B : sin (IZR 1 * (PI / 6)) = _)]; nra).
  assert (Z2 : cos (IZR 2 * (PI / 6)) = (1 / 2)%R /\ sin (IZR 2 * (PI / 6)) = (q / 2)%R) by (destruct (St 1%Z _ _ Z1) as [A B]; split; [rewrite (A : cos (IZR 2 * (PI / 6)) = _)|rewrite (B : sin (IZR 2 * (PI / 6)) = _)]; nra).
  assert (Z3 : cos (IZR 3 * (PI / 6)) = (0)%R /\ sin (IZR 3 * (PI / 6)) = (1)%R) by (destruct (St 2%Z _ _ Z2) as [A B]; split; [rewrite (A : cos (IZR 3 * (PI / 6)) = _)|rewrite (B : sin (IZR 3 * (PI / 6)) = _)]; nra).
  assert (Z4 : cos (IZR 4 * (PI / 6)) = (- (1 / 2))%R /\ sin (IZR 4 * (PI / 6)) = (q / 2)%R) by (destruct (St 3%Z _ _ Z3) as [A B]; split; [rewrite (A : cos (IZR 4 * (PI / 6)) = _)|rewrite (B : sin (IZR 4 * (PI / 6)) = _)]; nra).
  assert (Z5 : cos (IZR 5 * (PI / 6)) = (- (q / 2))%R /\ sin (IZR 5 * (PI / 6)) = (1 / 2)%R) by (destruct (St 4%Z _ _ Z4) as [A B]; split; [rewrite (A : cos (IZR 5 * (PI / 6)) = _)|rewrite (B : sin (IZR 5 * (PI / 6)) = _)]; nra).
  assert (Z6 : cos (IZR 6 * (PI / 6)) = (- (1))%R /\ sin (IZR 6 * (PI / 6)) = (0)%R) by (destruct (St 5%Z _ _ Z5) as [A B]; split; [rewrite (A : cos (IZR 6 * (PI / 6)) = _)|rewrite (B : sin (IZR 6 * (PI / 6)) = _)]; nra).
  assert (Ng : forall k c s, cos (IZR k * (PI / 6)) = c /\ sin (IZR k * (PI / 6)) = s -> cos (IZR (- k) * (PI / 6)) = c /\ sin (IZR (- k) * (PI / 6)) = (- s)%R).
  { intros k0 c s [<- <-]. rewrite opp_IZR, Ropp_mult_distr_l_reverse, cos_neg, sin_neg. split; reflexivity. }
  assert (N1 : cos (IZR (-1) * (PI / 6)) = (q / 2)%R /\ sin (IZR (-1) * (PI / 6)) = (- (1 / 2))%R) by (exact (Ng 1%Z _ _ Z1)).
  assert (N2 : cos (IZR (-2) * (PI / 6)) = (1 / 2)%R /\ sin (IZR (-2) * (PI / 6)) = (- (q / 2))%R) by (exact (Ng 2%Z _ _ Z2)).
  assert (N3 : cos (IZR (-3) * (PI / 6)) = (0)%R /\ sin (IZR (-3) * (PI / 6)) = (- (1))%R) by (exact (Ng 3%Z _ _ Z3)).
  assert (N4 : cos (IZR (-4) * (PI / 6)) = (- (1 / 2))%R /\ sin (IZR (-4) * (PI / 6)) = (- (q / 2))%R) by (exact (Ng 4%Z _ _ Z4)).
  assert (N5 : cos (IZR (-5) * (PI / 6)) = (- (q / 2))%R /\ sin (IZR (-5) * (PI / 6)) = (- (1 / 2))%R) by (exact (Ng 5%Z _ _ Z5)).
  assert (k = -5 \/ k = -4 \/ k = -3 \/ k = -2 \/ k = -1 \/ k = 0 \/ k = 1 \/ k = 2 \/ k = 3 \/ k = 4 \/ k = 5 \/ k = 6)%Z as Cs by lia.
  destruct Cs as [->|[->|[->|[->|[->|[->|[->|[->|[->|[->|[->| ->]]]]]]]]]]].
  - destruct N5 as [A B]. exists (- (q / 2))%R, (- (1 / 2))%R. refine (conj A (conj B _)). left. repeat split.
  - destruct N4 as [A B]. exists (- (1 / 2))%R, (- (q / 2))%R. refine (conj A (conj B _)). right. left. repeat split.
  - destruct N3 as [A B]. exists (0)%R, (- (1))%R. refine (conj A (conj B _)). right. right. left. repeat split.
  - destruct N2 as [A B]. exists (1 / 2)%R, (- (q / 2))%R. refine (conj A (conj B _)). right. right. right. left. repeat split.
  - destruct N1 as [A B]. exists (q / 2)%R, (- (1 / 2))%R. refine (conj A (conj B _)). right. right. right. right. left. repeat split.
  - destruct Z0 as [A B]. exists (1)%R, (0)%R. refine (conj A (conj B _)). right. right. right. right. right. left. repeat split.
  - destruct Z1 as [A B]. exists (q / 2)%R, (1 / 2)%R. refine (conj A (conj B _)). right. right. right. right. right. right. left. repeat split.
  - destruct Z2 as [A B]. exists (1 / 2)%R, (q / 2)%R. refine (conj A (conj B _)). right. right. right. right. right. right. right. left. repeat split.
  - destruct Z3 as [A B]. exists (0)%R, (1)%R. refine (conj A (conj B _)). right. right. right. right. right. right. right. right. left. repeat split.
  - destruct Z4 as [A B]. exists (- (1 / 2))%R, (q / 2)%R. refine (conj A (conj B _)). right. right. right. right. right. right. right. right. right. left. repeat split.
  - destruct Z5 as [A B]. exists (- (q / 2))%R, (1 / 2)%R. refine (conj A (conj B _)). right. right. right. right. right. right. right. right. right. right. left. repeat split.
  - destruct Z6 as [A B]. exists (- (1))%R, (0)%R. refine (conj A (conj B _)). right. right. right. right. right. right. right. right. right. right. right. repeat split.
Qed.
Lemma height_cases k : (-5 <= k <= 6)%Z -> let h := height (IZR k * (PI / 6)) in
  (k <> 0%Z -> Z.Even k -> (h < 70)%R) /\ (k = 0%Z -> h = 72%R) /\ ((-3 <= k <= 3)%Z -> (h < 75)%R) /\ (k = (-5)%Z -> (83 < h)%R).
Proof.
  intros Hk h. unfold h, height. destruct (twelfths k Hk) as (c & s & -> & -> & Cs). set (q := sqrt 3) in *. assert (Q : (q * q = 3)%R) by (apply sqrt_sqrt; lra).
  assert (Pq : (0 <= q)%R) by apply sqrt_pos. assert (Q1 : (1.732 < q)%R) by nra. assert (Q2 : (q < 1.7321)%R) by nra.
  destruct Cs as [(-> & -> & ->)|[(-> & -> & ->)|[(-> & -> & ->)|[(-> & -> & ->)|[(-> & -> & ->)|[(-> & -> & ->)|[(-> & -> & ->)|[(-> & -> & ->)|[(-> & -> & ->)|[(-> & -> & ->)|[(-> & -> & ->)|(-> & -> & ->)]]]]]]]]]]];
    (refine (conj _ (conj _ (conj _ _))); [intros Nz Ev; try (exfalso; first [lia|destruct Ev as [w Ev]; lia])|intros E; try lia|intros E; try lia|intros E; try lia]); nra.
Qed.
Lemma height_period z k : height (IZR (k + 12 * z) * (PI / 6)) = height (IZR k * (PI / 6)).
Proof.
  assert (E : cis (IZR (k + 12 * z) * (PI / 6)) = cis (IZR k * (PI / 6))).
  { rewrite plus_IZR, mult_IZR. replace ((IZR k + 12 * IZR z) * (PI / 6))%R with (IZR k * (PI / 6) + 2 * PI * IZR z)%R by field. rewrite cis_plus, cis_2PI_Z. ring. }
  pose proof (f_equal fst E) as E1. pose proof (f_equal snd E) as E2. cbn [fst snd cis] in E1, E2. unfold height. rewrite E1, E2. reflexivity.
Qed.
Lemma twelfth k : exists z j, (k = j + 12 * z)%Z /\ (-5 <= j <= 6)%Z.
Proof. exists ((k + 5) / 12)%Z, ((k + 5) mod 12 - 5)%Z. pose proof (Z.div_mod (k + 5) 12 ltac:(lia)). pose proof (Z.mod_pos_bound (k + 5) 12 ltac:(lia)). lia. Qed.
Theorem elsewhere_better : exists g t a, register [3]%nat (Some wave3) (Some spot3) (Some (/ 4)%R) = Ok g /\ multiples [3]%nat (/ 4) t /\ forall b, (misfit [3]%nat spot3 wave3 t a < misfit [3]%nat spot3 wave3 (g_shift g) b)%R.
Proof.
  pose proof spot_lit as Lr.
  assert (Lf : lit [3]%nat wave3).
  { apply lit_pos_inv. pose proof (norm2_nonneg [3]%nat wave3) as P. destruct (Rle_lt_or_eq_dec _ _ P) as [Q|Q]; [exact Q|exfalso].
    pose proof (norm2_zero [3]%nat wave3 (eq_sym Q)) as Z.
    assert (W : wave3 [0]%nat = 0) by (apply Z; constructor; [lia|constructor]). assert (W1 : wave3 [1]%nat = 0) by (apply Z; constructor; [lia|constructor]). assert (W2 : wave3 [2]%nat = 0) by (apply Z; constructor; [lia|constructor]).
    pose proof (ft_ift [3]%nat hat3 [0]%nat ltac:(constructor; [lia|constructor])) as F. fold wave3 in F. unfold ft in F. cbn [sum_over csum] in F. rewrite W, W1, W2 in F. cbn [hat3] in F. apply (f_equal fst) in F. cbn in F. lra. }
  destruct (best_near [3]%nat spot3 wave3 2 Lr Lf ltac:(cbn; lia) ltac:(lia)) as (g & t0 & G & Mg & O & N & B).
  { constructor; [|constructor]. cbn. lra. }
  change (2 * 2)%Z with 4%Z in *. set (X := cross_ft [3]%nat (ft [3]%nat spot3) (ft [3]%nat wave3)).
  destruct O as [[L0 H0] Op]. destruct t0 as [|x0 [|]]; try discriminate. inversion H0 as [|? ? (z & ->) _]; subst.
  destruct Mg as [Lg Hg]. destruct (g_shift g) as [|x [|]] eqn:Eg; try discriminate. inversion Hg as [|? ? (w & ->) _]; subst. inversion N as [|? ? ? ? Nx _]; subst.
  assert (Hv : forall k, (9 * (Cmod (val [3]%nat X [(IZR k * / 4)%R]) * Cmod (val [3]%nat X [(IZR k * / 4)%R])) = height (IZR k * (PI / 6)))%R).
  { intros k. unfold X. rewrite height_val. f_equal. field. }
  (** The best half point. *)
  assert (E0 : exists c, z = (6 * c)%Z).
  { assert (Q : (Cmod (val [3]%nat X [(IZR 0 * / 4)%R]) <= Cmod (val [3]%nat X [(IZR (2 * z) * / 4)%R]))%R).
    { replace (IZR (2 * z) * / 4)%R with (IZR z / 2)%R by (rewrite mult_IZR; field). apply (compare_misfit [3]%nat spot3 wave3 [(IZR z / 2)%R] [(IZR 0 * / 4)%R] Lr Lf eq_refl eq_refl).
      intros a'. apply Op. split; [reflexivity|]. constructor; [|constructor]. exists 0%Z. unfold Rdiv. ring. }
    pose proof (Cmod_ge_0 (val [3]%nat X [(IZR 0 * / 4)%R])) as P0. pose proof (Hv 0%Z) as V0. pose proof (Hv (2 * z)%Z) as Vz.
    destruct (twelfth (2 * z)) as (c & j & Ej & Hj). rewrite Ej, height_period in Vz. rewrite Ej in Q. destruct (height_cases j Hj) as (A & _). destruct (height_cases 0 ltac:(lia)) as (_ & A0 & _). specialize (A0 eq_refl).
    exists c. destruct (Z.eq_dec j 0) as [->|J]; [lia|exfalso]. assert (Z.Even j) as Ev by (exists (z - 6 * c)%Z; lia). specialize (A J Ev). nra. }
  destruct E0 as (c & ->).
  (** What is found near it. *)
  assert (Hw : (Cmod (val [3]%nat X [(IZR w * / 4)%R]) < Cmod (val [3]%nat X [(IZR (-5) * / 4)%R]))%R).
  { pose proof (Hv w) as Vw. pose proof (Hv (-5)%Z) as V5. set (j := (w - 12 * c)%Z). assert (-3 <= j <= 3)%Z as Hj.
    { unfold j. replace (IZR w * / 4 - IZR (6 * c) / 2)%R with (IZR (w - 12 * c) / 4)%R in Nx by (rewrite minus_IZR, !mult_IZR; field). apply Rabs_le_inv in Nx. split; apply le_IZR; lra. }
    replace w with (j + 12 * c)%Z in Vw at 3 by (unfold j; ring). rewrite height_period in Vw. destruct (height_cases j ltac:(lia)) as (_ & _ & A & _). specialize (A Hj). destruct (height_cases (-5) ltac:(lia)) as (_ & _ & _ & A5). specialize (A5 eq_refl).
    pose proof (Cmod_ge_0 (val [3]%nat X [(IZR w * / 4)%R])). pose proof (Cmod_ge_0 (val [3]%nat X [(IZR (-5) * / 4)%R])). nra. }
  exists g, [(IZR (-5) * / 4)%R]. unfold X in Hw. rewrite !(peak_mod [3]%nat spot3 wave3) in Hw by (assumption || reflexivity). rewrite spot_norm, sqrt_1 in Hw. unfold Rdiv in Hw. rewrite Rinv_1, !Rmult_1_r in Hw.
  exists (Cconj (ip [3]%nat spot3 (moved [3]%nat (back [(IZR (-5) * / 4)%R]) wave3)) / RtoC (norm2 [3]%nat wave3)). refine (conj G (conj (conj eq_refl _) _)); [constructor; [eauto|constructor]|].
  intros b. rewrite Eg, misfit_best by (assumption || reflexivity). eapply Rlt_le_trans; [|apply (misfit_least [3]%nat spot3 wave3 [(IZR w * / 4)%R] b Lr Lf eq_refl)].
  pose proof (lit_pos _ _ Lf) as P'. pose proof (Cmod_ge_0 (ip [3]%nat spot3 (moved [3]%nat (back [(IZR w * / 4)%R]) wave3))). apply Rplus_lt_compat_l, Ropp_lt_contravar, Rmult_lt_compat_r; [apply Rinv_0_lt_compat, P'|]. nra.
Qed.
