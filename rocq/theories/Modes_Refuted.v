(** Small amplitudes, coarse grids, and the planes of sources and detectors. *)
From Coq Require Import Reals List Arith Bool ZArith Lia Lra ZifyNat.
Require Import Verif.Base Verif.Cplx Verif.CSum Verif.Field Verif.Fourier_Model Verif.Fourier_Spec Verif.Fourier_Proofs Verif.Vec_Model Verif.Matrix_Model Verif.Matrix_Spec Verif.Matrix_Cache
  Verif.Modes_Model Verif.Modes_Spec Verif.Modes_Proofs Verif.Modes_Waves Verif.Modes_Fields.
Require Verif.Bound_Spec.
Import ListNotations.
Local Open Scope R_scope.
Local Open Scope C_scope.

(** ** One dimension *)
Section Line.
  Variable o : optics.
  Hypotheses (V : valid o) (L : shape_of o = []) (Sc : vectorial o = false).

  Lemma line_modes : modes o = [[]].
  Proof. unfold modes. rewrite L. reflexivity. Qed.
  Lemma line_count : n_modes o = 1%nat.
  Proof. unfold n_modes. rewrite line_modes. reflexivity. Qed.
  Lemma line_pol : n_pol o = 1%nat.
  Proof. unfold n_pol. rewrite Sc. reflexivity. Qed.
  Lemma line_cosine : cosine o 0 = 1%R.
  Proof.
    unfold cosine, direction_t. replace (rndim (transverse o)) with 0%nat by (unfold rndim; unfold shape_of in L; rewrite L; reflexivity). cbn [Nat.ltb Nat.leb rsum].
    rewrite Rmax_left by lra. replace (1 - (0 + 0 * 0 + 0 * 0))%R with 1%R by ring. apply sqrt_1.
  Qed.
  Lemma line_axial : k_axial o (mode o 0) = wavenumber o.
  Proof.
    pose proof V as (_ & _ & _ & _ & V5 & _). destruct (cosine_axial o 0 V ltac:(rewrite line_count; lia)) as (C1 & _). rewrite line_cosine in C1.
    apply (Rmult_eq_reg_r (/ wavenumber o)); [|apply Rinv_neq_0_compat; lra]. rewrite Rinv_r by lra. symmetry. exact C1.
  Qed.
  Lemma line_waves v c x : waves o v c x [] = v 0%nat * cis (wavenumber o * xpos o x) + v 1%nat * cis (- (wavenumber o * xpos o x)).
  Proof.
    pose proof V as (_ & _ & _ & _ & V5 & _). unfold waves, polarize, element, k_dot_r. rewrite line_count, line_pol, Sc. cbn [csum]. rewrite line_axial.
    replace (rndim (transverse o)) with 0%nat by (unfold rndim; unfold shape_of in L; rewrite L; reflexivity). cbn [rsum].
    replace (wavenumber o / wavenumber o)%R with 1%R by (field; lra). rewrite sqrt_1, Rplus_0_r. cbn [Nat.mul Nat.add]. unfold Cdiv. replace (/ RtoC 1) with (RtoC 1) by (field; intros E; apply RtoC_inj in E; lra). ring.
  Qed.
  Lemma ift_point f : ift [] f [] = f [].
  Proof. unfold ift. cbn [sum_over phase points fold_right INR]. rewrite cis_0. field. intros E. apply RtoC_inj in E. lra. Qed.
  Lemma line_detected E side : detected o E side 0 0 =
    if (side =? 0)%nat then E 0%nat [back_detector o] * cis (- (wavenumber o * xpos o (back_detector o))) else E 0%nat [front_detector o] * cis (wavenumber o * xpos o (front_detector o)).
  Proof.
    unfold detected, unpolarize, plane. rewrite Sc, L, line_cosine, sqrt_1.
    replace (rmode o 0) with (@nil nat) by (unfold rmode; rewrite line_modes; reflexivity). rewrite ift_point, Rmult_1_r.
    assert (origin_phase o 0 = 0)%R as -> by (unfold origin_phase; replace (rndim (transverse o)) with 0%nat by (unfold rndim; unfold shape_of in L; rewrite L; reflexivity); cbn [rsum]; ring).
    rewrite Ropp_0, cis_0. destruct (side =? 0)%nat; [ring|]. rewrite !Cconj_mult, !Cconj_R, Cconj_conj, <- cis_neg, Ropp_involutive. ring.
  Qed.
  Lemma line_negligible (v : vec) side : (Cmod (v side) <= / 100000000)%R -> negligible o (amplitude o v side) = true.
  Proof.
    intros H. unfold negligible, amplitude, element. rewrite line_count, line_pol. cbn [seq forallb]. rewrite line_cosine, sqrt_1.
    replace ((side * 1 + 0) * 1 + 0)%nat with side by lia. replace (v side / 1) with (v side) by (field; intros E; apply RtoC_inj in E; lra).
    unfold Rleb. destruct (Rle_dec _ _); [reflexivity|contradiction].
  Qed.
  Lemma small_unseen (v : vec) c q : (Cmod (v 0%nat) <= / 100000000)%R -> (Cmod (v 1%nat) <= / 100000000)%R -> srcvec2freespace o v c q = 0.
  Proof. intros H0 H1. unfold srcvec2freespace, side_field. rewrite !line_negligible by assumption. ring. Qed.
  Lemma small_mirror solve (a : C) : (Cmod a <= / 100000000)%R ->
    let v : vec := fun i => a * basis 0 i in
    (forall x c r, solve v c (x :: r) = waves o v c x r) ->
    scatter o solve v 0%nat = a /\ scatter o solve v 1%nat = a * (cis (wavenumber o * xpos o (front_detector o)) * cis (wavenumber o * xpos o (front_detector o))).
  Proof.
    intros Ha v Hs. assert (v 0%nat = a /\ v 1%nat = 0) as [E0 E1] by (unfold v, basis; cbn [Nat.eqb]; split; ring).
    assert (forall side side', (Cmod (only_side o side v side') <= / 100000000)%R) as Hm.
    { intros side side'. unfold only_side. destruct (_ =? side)%nat; [|rewrite Cmod_0; lra]. unfold v, basis. destruct (side' =? 0)%nat; [rewrite Cmult_1_r; exact Ha|]. replace (a * 0) with (RtoC 0) by ring. rewrite Cmod_0. lra. }
    assert (forall c x, outward o solve v c [x] = waves o v c x []) as Ho.
    { intros c x. unfold outward. cbv zeta. rewrite Hs, !small_unseen by apply Hm. destruct (_ =? plane o 0)%nat, (_ =? plane o 1)%nat; ring. }
    unfold scatter, detfield2detvec. rewrite line_count, line_pol.
    change (0 / (1 * 1))%nat with 0%nat. change ((0 / 1) mod 1)%nat with 0%nat. change (0 mod 1)%nat with 0%nat. change (1 / (1 * 1))%nat with 1%nat. change ((1 / 1) mod 1)%nat with 0%nat. change (1 mod 1)%nat with 0%nat.
    rewrite !line_detected. cbn [Nat.eqb]. rewrite !Ho, !line_waves, E0, E1. split.
    - transitivity (a * (cis (wavenumber o * xpos o (back_detector o)) * cis (- (wavenumber o * xpos o (back_detector o))))); [ring|]. rewrite cis_cancel. ring.
    - ring.
  Qed.
  Lemma small_poisons solve (a : C) : a <> 0 -> (Cmod a <= / 100000000)%R ->
    (forall v x c r, solve v c (x :: r) = waves o v c x r) ->
    exists w s, cached (scatter o solve) 2 true (after (scatter o solve) 2 true [Multiply true [fun i => a * basis 0 i]]) [basis 0] = Ok ([w], s) /\
      w 0%nat = 1 /\ w 1%nat = cis (wavenumber o * xpos o (front_detector o)) * cis (wavenumber o * xpos o (front_detector o)).
  Proof.
    intros A0 Ha Hs. set (v := fun i => a * basis 0 i). destruct (small_mirror solve a Ha ltac:(intros; apply Hs)) as [M0 M1]. fold v in M0, M1.
    assert (non_zeros 2 v = [0]%nat) as NZ.
    { apply non_zeros_one. split; [lia|]. unfold v, basis. cbn [Nat.eqb]. split; [rewrite Cmult_1_r; exact A0|]. intros i _ Hi. destruct (Nat.eqb_spec i 0); [contradiction|]. ring. }
    unfold after. cbn [fold_left operate]. unfold cached at 2. cbn [cache_columns]. unfold cache_column. rewrite NZ. cbn [new_cache ccaching lookup ccolumns call store bind].
    unfold cached. cbn [cache_columns]. unfold cache_column. rewrite non_zeros_basis by lia. cbn [ccaching ccolumns lookup Nat.eqb bind]. eexists _, _. split; [reflexivity|].
    assert (v 0%nat = a) as E0 by (unfold v, basis; cbn [Nat.eqb]; ring). rewrite E0, M0, M1. unfold basis. cbn [Nat.eqb]. split; field; exact A0.
  Qed.
End Line.

(** ** Planes *)
Lemma Int_part_bounds x : (IZR (Int_part x) <= x < IZR (Int_part x) + 1)%R.
Proof. destruct (base_Int_part x). split; lra. Qed.
Lemma Int_part_mono x y : (x <= y)%R -> (Int_part x <= Int_part y)%Z.
Proof. intros H. pose proof (Int_part_bounds x). pose proof (Int_part_bounds y). apply Z.lt_succ_r. unfold Z.succ. apply lt_IZR. rewrite plus_IZR. lra. Qed.
Lemma div_le a b s : (0 < s)%R -> (a <= b)%R -> (a / s <= b / s)%R.
Proof. intros S H. apply Rmult_le_compat_r; [apply Rlt_le, Rinv_0_lt_compat; exact S|exact H]. Qed.
Lemma planes_ordered n tf tb wl st : (0 < st)%R -> (0 <= tf)%R -> (0 <= tb)%R -> (0 < wl)%R -> (tf + tb + 2 * wl + 2 * st < IZR n * st)%R ->
  (1 <= source_front tf st <= detector_front tf wl st)%Z /\ (detector_front tf wl st < detector_back n tb wl st)%Z /\ (detector_back n tb wl st <= source_back n tb st <= n - 1)%Z.
Proof.
  intros S Tf Tb W H. unfold source_front, detector_front, detector_back, source_back.
  assert (forall x, (0 <= x)%R -> (0 <= Int_part (x / st))%Z) as P.
  { intros x Hx. replace 0%Z with (Int_part (0 / st)); [apply Int_part_mono, div_le; assumption|]. replace (0 / st)%R with 0%R by (field; lra). pose proof (Int_part_bounds 0) as [B1 B2]. apply Z.le_antisymm; [apply le_IZR; exact B1|]. apply Z.lt_succ_r. unfold Z.succ. apply lt_IZR. rewrite plus_IZR. exact B2. }
  pose proof (P tf Tf). pose proof (P tb Tb). pose proof (Int_part_mono _ _ (div_le tf (tf + wl) st S ltac:(lra))). pose proof (Int_part_mono _ _ (div_le tb (tb + wl) st S ltac:(lra))).
  assert (Int_part ((tf + wl) / st) + 1 < n - Int_part ((tb + wl) / st) - 1)%Z; [|lia].
  apply lt_IZR. rewrite !minus_IZR, plus_IZR. pose proof (Int_part_bounds ((tf + wl) / st)) as [A1 _]. pose proof (Int_part_bounds ((tb + wl) / st)) as [B1 _].
  apply (Rmult_lt_reg_r st); [exact S|]. assert ((tf + wl) / st * st = tf + wl)%R by (field; lra). assert ((tb + wl) / st * st = tb + wl)%R by (field; lra). nra.
Qed.
Lemma planes_positions n tf tb wl st : (0 < st)%R ->
  (tf < IZR (source_front tf st) * st <= tf + st)%R /\ (tf + wl < IZR (detector_front tf wl st) * st <= tf + wl + st)%R /\
  (tb < IZR (n - source_back n tb st) * st <= tb + st)%R /\ (tb + wl < IZR (n - detector_back n tb wl st) * st <= tb + wl + st)%R.
Proof.
  intros S. unfold source_front, detector_front, detector_back, source_back.
  assert (forall x, (x < IZR (Int_part (x / st) + 1) * st <= x + st)%R) as P.
  { intros x. rewrite plus_IZR. pose proof (Int_part_bounds (x / st)) as [A1 A2]. assert (x / st * st = x)%R by (field; lra). split; nra. }
  replace (n - (n - Int_part (tb / st) - 1))%Z with (Int_part (tb / st) + 1)%Z by lia. replace (n - (n - Int_part ((tb + wl) / st) - 1))%Z with (Int_part ((tb + wl) / st) + 1)%Z by lia. auto.
Qed.
Lemma back_source_distance n tb st : (0 < st)%R -> (forall z : Z, tb <> IZR z * st)%R -> (IZR (n - 1 - source_back n tb st) * st < tb)%R /\ (tb - st < IZR (n - 1 - source_back n tb st) * st)%R.
Proof.
  intros S H. unfold source_back. replace (n - 1 - (n - Int_part (tb / st) - 1))%Z with (Int_part (tb / st)) by lia. pose proof (Int_part_bounds (tb / st)) as [A1 A2]. specialize (H (Int_part (tb / st))).
  assert (tb / st * st = tb)%R by (field; lra). split; nra.
Qed.

(** ** Coarse grids *)
Definition coarse : optics := {| transverse := {| rshape := [2%nat]; rstep := [8%R] |}; tfirst := [0%R]; xpos := fun _ => 0%R; wavenumber := 1; tolerance := 0; front_detector := 0; back_detector := 1; vectorial := false |}.
Lemma coarse_modes : modes coarse = [[1%nat]; [0%nat]].
Proof.
  unfold modes, shape_of. cbn [coarse transverse rshape rstep indices seq flat_map map app wavenumber tolerance filter propagates].
  assert (forall i, (i < 2)%nat -> Rltb (Rabs (k_centred 2 8 i)) (1 - 0) = true) as K.
  { intros i Hi. apply Rltb_spec. unfold k_centred. change (2 / 2)%nat with 1%nat. cbn [INR]. pose proof PI_RGT_0. pose proof PI_4. destruct i as [|[|]]; [| |lia].
    - change (IZR (Z.of_nat 0 - Z.of_nat 1)) with (-1)%R. rewrite Rabs_left; lra.
    - change (IZR (Z.of_nat 1 - Z.of_nat 1)) with 0%R. rewrite Rabs_pos_eq; lra. }
  rewrite !K by lia. reflexivity.
Qed.
Lemma coarse_valid : valid coarse.
Proof. unfold valid, coarse, shape_of; cbn. repeat split; try (repeat constructor; lra || lia); try lra; try lia. Qed.
Lemma coarse_cosine : cosine coarse 1 = 1%R.
Proof.
  unfold cosine, direction_t, mode, rndim, kvec, k_axis. rewrite coarse_modes. cbn [coarse transverse rshape rstep length nth rsum Nat.ltb Nat.leb wavenumber].
  change (k_index 2 0) with 0%Z. replace (1 - _)%R with 1%R by (field; cbn [INR]; lra). rewrite Rmax_left by lra. apply sqrt_1.
Qed.
Lemma coarse_count : n_modes coarse = 2%nat.
Proof. unfold n_modes. rewrite coarse_modes. reflexivity. Qed.
Lemma coarse_waves : srcvec2freespace coarse (basis 1) 0%nat [0%nat; 1%nat] = - (1) /\ waves coarse (basis 1) 0%nat 0%nat [1%nat] = 1.
Proof.
  assert (forall z : C, z / 1 = z) as D1 by (intros; field; intros E; apply RtoC_inj in E; lra). split.
  - unfold srcvec2freespace.
    assert (side_field coarse (basis 1) 1 0%nat [0%nat; 1%nat] = 0) as ->.
    { apply side_field_zero. intros j p Hj Hp. unfold element, basis. rewrite coarse_count in *. change (n_pol coarse) with 1%nat in *. destruct (Nat.eqb_spec ((1 * 2 + j) * 1 + p) 1); [lia|reflexivity]. }
    unfold side_field. cbn [Nat.eqb].
    assert (negligible coarse (amplitude coarse (basis 1) 0) = false) as ->.
    { unfold negligible, n_pol. rewrite coarse_count. cbn [coarse vectorial seq forallb]. fold coarse. unfold amplitude at 2. rewrite coarse_cosine, sqrt_1, D1. unfold element. rewrite coarse_count.
      change (basis 1 _) with (RtoC 1). rewrite Cmod_1. unfold Rleb at 2. destruct (Rle_dec 1 _); [lra|]. rewrite andb_false_r. reflexivity. }
    rewrite spread_sum, coarse_count. cbn [csum]. unfold rmode. rewrite coarse_modes. cbn [rev app nth].
    assert (forall j p, polarize coarse j (amplitude coarse (basis 1) 0 j) p = amplitude coarse (basis 1) 0 j 0%nat) as Hp by reflexivity. rewrite !Hp.
    unfold amplitude, element. rewrite coarse_count, coarse_cosine, sqrt_1, D1. change (n_pol coarse) with 1%nat. change (basis 1 ((0 * 2 + 0) * 1 + 0)%nat) with (RtoC 0). change (basis 1 ((0 * 2 + 1) * 1 + 0)%nat) with (RtoC 1).
    assert (origin_phase coarse 1 = 0)%R as -> by (unfold origin_phase, rndim; cbn [coarse transverse tfirst rshape length rsum nth]; ring).
    change (xpos coarse 0) with 0%R. rewrite !Rmult_0_r, !cis_0. change (shape_of coarse) with [2%nat]. cbn [phase INR].
    replace (- (2 * PI * (1 * 1) / (1 + 1) + 0))%R with (- PI)%R by field. replace (cis (- PI)) with (- (1)); [unfold Cdiv; ring|].
    unfold cis. rewrite cos_neg, sin_neg, cos_PI, sin_PI. unfold Copp, RtoC; cbn. f_equal; ring.
  - unfold waves. rewrite coarse_count. cbn [csum]. unfold element. rewrite coarse_count. change (n_pol coarse) with 1%nat.
    assert (forall j w p, polarize coarse j w p = w 0%nat) as Hp by reflexivity. rewrite !Hp.
    change (basis 1 ((0 * 2 + 0) * 1 + 0)%nat) with (RtoC 0). change (basis 1 ((0 * 2 + 1) * 1 + 0)%nat) with (RtoC 1). change (basis 1 ((1 * 2 + 0) * 1 + 0)%nat) with (RtoC 0). change (basis 1 ((1 * 2 + 1) * 1 + 0)%nat) with (RtoC 0).
    destruct (cosine_axial coarse 1 coarse_valid ltac:(rewrite coarse_count; lia)) as (C1 & _). rewrite <- C1, coarse_cosine, sqrt_1.
    assert (k_dot_r coarse (mode coarse 1) 0 [1%nat] = 0)%R as ->.
    { unfold k_dot_r, rndim, kvec, k_axis, mode. rewrite coarse_modes. cbn [coarse transverse tfirst rshape rstep length rsum nth xpos]. change (k_index 2 0) with 0%Z. cbn [INR]. field. }
    rewrite cis_0, D1. unfold Cdiv. ring.
Qed.
Lemma coarse_all : valid coarse /\ significant coarse (basis 1) 0 /\ significant coarse (basis 1) 1 /\ waves coarse (basis 1) 0%nat 0%nat [1%nat] = 1 /\ srcvec2freespace coarse (basis 1) 0%nat [0%nat; 1%nat] = - (1).
Proof.
  destruct coarse_waves as [W1 W2]. repeat split; try assumption; try apply coarse_valid.
  - right. exists 1%nat. rewrite coarse_count. change (n_pol coarse) with 1%nat. split; [lia|]. cbn [Nat.mul Nat.add]. unfold basis. cbn [Nat.eqb]. rewrite Cmod_1. lra.
  - left. intros i Hi. unfold basis. rewrite coarse_count. change (n_pol coarse) with 1%nat. destruct (Nat.eqb_spec (1 * (2 * 1) + i) 1) as [E|_]; [lia|reflexivity].
Qed.

(** ** Units *)
Lemma no_modes_though_propagating o : valid o -> (wavenumber o <= tolerance o)%R -> shape_of o <> [] ->
  modes o = [] /\ let m := map (fun _ => 0%nat) (shape_of o) in inside (shape_of o) m /\ (k2 (transverse o) m < wavenumber o * wavenumber o)%R.
Proof.
  intros (V1 & V2 & V3 & V4 & V5 & V6) H N. split; [apply no_modes; assumption|]. cbv zeta. split.
  - clear -V3. unfold inside. induction (shape_of o) as [|n s IH]; [constructor|]. inversion V3; subst. cbn [map]. constructor; auto.
  - assert (k2 (transverse o) (map (fun _ => 0%nat) (shape_of o)) = 0)%R as ->; [|nra]. unfold k2. clear H N.
    assert (forall i, kvec (transverse o) i (map (fun _ => 0%nat) (shape_of o)) = 0)%R as K.
    { intros i. unfold kvec, k_axis. assert (nth i (map (fun _ => 0%nat) (shape_of o)) 0%nat = 0%nat) as ->.
      { destruct (nth_in_or_default i (map (fun _ : nat => 0%nat) (shape_of o)) 0%nat) as [Q|Q]; [apply in_map_iff in Q as (? & E & _); symmetry; exact E|exact Q]. }
      unfold k_index. replace (if (2 * 0 <? nth i (rshape (transverse o)) 1%nat)%nat then Z.of_nat 0 else _) with 0%Z; [unfold Rdiv; ring|].
      destruct (Nat.ltb_spec (2 * 0) (nth i (rshape (transverse o)) 1%nat)) as [_|L]; [reflexivity|]. exfalso.
      destruct (Nat.lt_ge_cases i (length (shape_of o))) as [Q|Q].
      - rewrite Forall_forall in V3. specialize (V3 (nth i (shape_of o) 1%nat) (nth_In _ _ Q)). unfold shape_of in *. lia.
      - unfold shape_of in *. rewrite nth_overflow in L by exact Q. lia. }
    induction (rndim (transverse o)) as [|d IH]; [reflexivity|]. cbn [rsum]. rewrite IH, K. ring.
Qed.

(** ** The absorbing boundary *)
Lemma planes_not_absorbing n tf tb wl st kmax : (0 < st)%R -> (st <= wl)%R ->
  Bound_Spec.profile (fun d => kmax * d)%R tf (IZR (source_front tf st) * st)%R = 0%R /\
  Bound_Spec.profile (fun d => kmax * d)%R tf (IZR (detector_front tf wl st) * st)%R = 0%R /\
  Bound_Spec.profile (fun d => kmax * d)%R tb (IZR (n - 1 - detector_back n tb wl st) * st)%R = 0%R.
Proof.
  intros S W. destruct (planes_positions n tf tb wl st S) as (P1 & P2 & P3 & P4). unfold Bound_Spec.profile. repeat split.
  - destruct (Rlt_dec _ _); [lra|reflexivity].
  - destruct (Rlt_dec _ _); [lra|reflexivity].
  - replace (n - 1 - detector_back n tb wl st)%Z with (n - detector_back n tb wl st - 1)%Z by lia. rewrite minus_IZR. destruct (Rlt_dec _ _); [nra|reflexivity].
Qed.
Lemma back_source_absorbing n tb st kmax : (0 < st)%R -> (0 < kmax)%R -> (0 < tb)%R -> (forall z : Z, tb <> IZR z * st)%R ->
  (0 < Bound_Spec.profile (fun d => kmax * d) tb (IZR (n - 1 - source_back n tb st) * st))%R.
Proof.
  intros S K T H. destruct (back_source_distance n tb st S H) as [D1 D2]. unfold Bound_Spec.profile. destruct (Rlt_dec _ _) as [L|L]; [|lra].
  apply Rmult_lt_0_compat; [exact K|]. apply Rdiv_lt_0_compat; lra.
Qed.
