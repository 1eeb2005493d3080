(** Extents, frequency grids and views in double precision. *)
From Coq Require Import ZArith Reals Lia Lra Psatz List.
From Flocq Require Import Core.Core IEEE754.BinarySingleNaN.
From Verif Require Import Base Num Grid_Model Grid_Proofs Float_Model Float_Spec Float_Basics Float_Proofs Float_Construct.
Local Open Scope R_scope.

Local Notation u := unit_roundoff.
Local Notation eta := smallest.

(** Relative errors as factors. *)
Lemma normal_factor x : normal x -> exists d, Rabs d <= u /\ rnd x = x * (1 + d).
Proof.
  intros N. pose proof (rnd_error_normal x N) as E.
  assert (0 < Rabs x) as P by (eapply Rlt_le_trans; [apply (bpow_gt_0 radix2 (-1022))|exact N]).
  assert (x <> 0) as X by (intros ->; rewrite Rabs_R0 in P; lra).
  exists ((rnd x - x) / x). split.
  - unfold Rdiv. rewrite Rabs_mult, Rabs_inv. apply Rmult_le_reg_r with (Rabs x); [exact P|].
    rewrite Rmult_assoc, Rinv_l, Rmult_1_r by lra. exact E.
  - field. exact X.
Qed.
Lemma factor_pos d : Rabs d <= u -> 1 - / 1024 <= 1 + d <= 1 + / 1024.
Proof. intros H. apply Rabs_le_inv in H. pose proof u_small. lra. Qed.
Lemma inv_factor d : Rabs d <= u -> Rabs (/ (1 + d) - 1) <= (1 + / 512) * u.
Proof.
  intros H. pose proof (factor_pos d H) as F.
  replace (/ (1 + d) - 1) with (- d * / (1 + d)) by (field; lra).
  rewrite Rabs_mult, Rabs_Ropp, Rabs_inv, (Rabs_pos_eq (1 + d)) by lra.
  rewrite (Rmult_comm (1 + / 512)). pose proof u_pos.
  apply Rmult_le_compat; [apply Rabs_pos| |exact H|].
  - apply Rlt_le, Rinv_0_lt_compat. lra.
  - replace (1 + / 512) with (/ (512 / 513)) by field. apply Rinv_le_contravar; lra.
Qed.

Lemma bpow_2 : bpow radix2 (-20) = / 1048576.
Proof. reflexivity. Qed.

(** [np.isclose] accepts a small relative error. *)
Lemma isclose_count q n : (1 <= n <= 2 ^ 53)%Z -> finite q -> Rabs (val q - IZR n) <= 4 * u * IZR n ->
  isclose BN q (nofZ BN n) = true.
Proof.
  intros B Fq H. unfold isclose.
  assert (finite (nofZ BN n)) as Fn by (apply ofZ_fin; lia).
  assert (val (nofZ BN n) = IZR n) as Vn by (apply ofZ_eq; lia).
  assert (1 <= IZR n) as n1 by (apply IZR_le; lia).
  assert (IZR n <= IZR (2 ^ 53)) as n2 by (apply IZR_le; lia).
  pose proof u_pos. pose proof u_small.
  assert (bpow radix2 53 = IZR (2 ^ 53)) as b53 by reflexivity.
  assert (forall x, Rabs x <= bpow radix2 53 -> Rabs (rnd x) < bpow radix2 1024) as small.
  { intros x Hx. apply Rle_lt_trans with (bpow radix2 53); [|apply bpow_lt; lia].
    apply Rabs_le. apply Rabs_le_inv in Hx.
    assert (rnd (bpow radix2 53) = bpow radix2 53) as E by (rewrite b53; apply rnd_fmt, fmt_IZR; lia).
    split.
    - rewrite <- E at 1. rewrite <- rnd_opp. apply rnd_le. lra.
    - rewrite <- E. apply rnd_le. lra. }
  (* the difference *)
  pose proof (rnd_error_add (val q) (- IZR n) (fmt_val q)) as Ed.
  assert (fmt (- IZR n)) as Fm by (apply generic_format_opp, fmt_IZR; lia). specialize (Ed Fm).
  change (val q + - IZR n) with (val q - IZR n) in Ed.
  assert (Rabs (rnd (val q - IZR n)) <= 8 * u * IZR n) as D.
  { replace (rnd (val q - IZR n)) with ((val q - IZR n) + (rnd (val q - IZR n) - (val q - IZR n))) by ring.
    eapply Rle_trans; [apply Rabs_triang|].
    assert (u * Rabs (val q - IZR n) <= / 1024 * Rabs (val q - IZR n)) by (apply Rmult_le_compat_r; [apply Rabs_pos|lra]).
    assert (0 <= u * IZR n) by (apply Rmult_le_pos; lra). lra. }
  assert (finite (nsub BN q (nofZ BN n))) as Fd.
  { apply sub_fin; auto. rewrite Vn. eapply Rle_lt_trans; [exact D|].
    apply Rle_lt_trans with (bpow radix2 53); [|apply bpow_lt; lia]. rewrite b53. nra. }
  destruct (sub_val _ _ Fd) as (_ & _ & Vd). rewrite Vn in Vd.
  destruct (abs_val _ Fd) as [Fa Va]. rewrite Vd in Va.
  destruct (abs_val _ Fn) as [Fy Vy]. rewrite Vn, (Rabs_pos_eq (IZR n)) in Vy by lra.
  (* the tolerance *)
  assert (val (nofZ BN 1) = 1) as V1 by (apply ofZ_eq; lia).
  assert (val (nofZ BN 100000000) = 100000000) as V8 by (apply ofZ_eq; lia).
  assert (val (nofZ BN 100000) = 100000) as V5 by (apply ofZ_eq; lia).
  assert (finite (nofZ BN 1)) as F1 by (apply ofZ_fin; lia).
  assert (finite (ndiv BN (nofZ BN 1) (nofZ BN 100000000))) as F8.
  { apply div_fin; [exact F1|rewrite V8; lra|]. rewrite V1, V8. apply small. rewrite Rabs_pos_eq by lra.
    rewrite b53. apply Rle_trans with 1; [lra|]. apply IZR_le. lia. }
  assert (finite (ndiv BN (nofZ BN 1) (nofZ BN 100000))) as F5.
  { apply div_fin; [exact F1|rewrite V5; lra|]. rewrite V1, V5. apply small. rewrite Rabs_pos_eq by lra.
    rewrite b53. apply Rle_trans with 1; [lra|]. apply IZR_le. lia. }
  destruct (div_val _ _ ltac:(rewrite V8; lra) F8) as [_ W8]. rewrite V1, V8 in W8.
  destruct (div_val _ _ ltac:(rewrite V5; lra) F5) as [_ W5]. rewrite V1, V5 in W5.
  set (a := ndiv BN (nofZ BN 1) (nofZ BN 100000000)) in *. set (b := ndiv BN (nofZ BN 1) (nofZ BN 100000)) in *.
  assert (rnd 1 = 1) as R1 by (apply rnd_fmt, fmt_IZR; lia).
  assert (0 <= val a <= 1) as a01.
  { rewrite W8. split; [rewrite <- rnd_0|rewrite <- R1 at 2]; apply rnd_le; lra. }
  assert (bpow radix2 (-20) <= val b <= bpow radix2 (-10)) as b01.
  { assert (forall e, (-1000 <= e <= 0)%Z -> rnd (bpow radix2 e) = bpow radix2 e) as RB.
    { intros e He. apply rnd_fmt. apply generic_format_bpow. unfold FLT_exp. lia. }
    rewrite W5, <- (RB (-20)%Z), <- (RB (-10)%Z) by lia. split; apply rnd_le.
    - rewrite bpow_2. lra.
    - change (bpow radix2 (-10)) with (/ 1024). lra. }
  rewrite bpow_2 in b01. change (bpow radix2 (-10)) with (/ 1024) in b01.
  assert (finite (nmul BN b (nabs (nofZ BN n)))) as Fp.
  { apply mul_fin; auto. rewrite Vy. apply small. rewrite Rabs_mult, !Rabs_pos_eq by lra. rewrite b53. nra. }
  destruct (mul_val _ _ Fp) as (_ & _ & Vp). rewrite Vy in Vp.
  assert (/ 2097152 * IZR n <= val (nmul BN b (nabs (nofZ BN n))) <= bpow radix2 52) as p01.
  { rewrite Vp. split.
    - assert (normal (val b * IZR n)) as NB.
      { unfold normal. rewrite Rabs_mult, !Rabs_pos_eq by lra. apply Rle_trans with (bpow radix2 (-20)).
        - apply bpow_le. lia.
        - rewrite bpow_2. nra. }
      destruct (normal_factor _ NB) as (d & Hd & ->). apply factor_pos in Hd.
      assert (/ 1048576 * IZR n <= val b * IZR n) by (apply Rmult_le_compat_r; lra).
      assert (val b * IZR n * (/ 2) <= val b * IZR n * (1 + d)) by (apply Rmult_le_compat_l; nra). lra.
    - assert (bpow radix2 52 = IZR (2 ^ 52)) as b52 by reflexivity.
      rewrite <- (rnd_fmt (bpow radix2 52)) by (rewrite b52; apply fmt_IZR; lia). apply rnd_le.
      assert (bpow radix2 53 = 2 * bpow radix2 52) as E2 by (rewrite b53, b52, <- mult_IZR; reflexivity). nra. }
  set (p := nmul BN b (nabs (nofZ BN n))) in *.
  assert (finite (nadd BN a p)) as Fs.
  { apply add_fin; auto. apply small. rewrite Rabs_pos_eq by lra.
    assert (bpow radix2 53 = 2 * bpow radix2 52) as E2 by reflexivity.
    assert (1 <= bpow radix2 52) by (change 1 with (bpow radix2 0); apply bpow_le; lia). lra. }
  destruct (add_val _ _ Fs) as (_ & _ & Vs).
  apply leb_val; auto. rewrite Va, Vs.
  eapply Rle_trans; [exact D|]. apply Rle_trans with (val p).
  - assert (u <= / 1048576 * / 1048576) as U2.
    { unfold unit_roundoff. rewrite <- bpow_2, <- bpow_plus. apply bpow_le. lia. }
    eapply Rle_trans; [|apply p01]. apply Rmult_le_compat_r; lra.
  - rewrite <- (rnd_fmt (val p) (fmt_val p)) at 1. apply rnd_le. lra.
Qed.

(** [e / (e / n)] is close to [n]. *)
Lemma requotient e n s : (1 <= n <= 2 ^ 53)%Z -> finite e -> normal (val e / IZR n) -> finite s ->
  val s = rnd (val e / IZR n) ->
  val s <> 0 /\ finite (ndiv BN e s) /\ Rabs (val (ndiv BN e s) - IZR n) <= 4 * u * IZR n.
Proof.
  intros B Fe N Fs Vs. destruct (normal_factor _ N) as (d & Hd & Ed). pose proof (factor_pos d Hd) as Fd.
  assert (1 <= IZR n) as n1 by (apply IZR_le; lia).
  assert (IZR n <= IZR (2 ^ 53)) as n2 by (apply IZR_le; lia).
  assert (val e <> 0) as e0.
  { intros Z. unfold normal in N. rewrite Z in N. unfold Rdiv in N. rewrite Rmult_0_l, Rabs_R0 in N.
    pose proof (bpow_gt_0 radix2 (-1022)). lra. }
  assert (val s = val e / IZR n * (1 + d)) as Es by (rewrite Vs; exact Ed).
  assert (val s <> 0) as s0.
  { rewrite Es. apply Rmult_integral_contrapositive_currified; [|lra]. apply Rmult_integral_contrapositive_currified; [exact e0|].
    apply Rinv_neq_0_compat. lra. }
  assert (val e / val s = IZR n * / (1 + d)) as Q by (rewrite Es; field; repeat split; lra || assumption).
  assert (/ 2 <= / (1 + d) <= 2) as I.
  { split; [apply Rinv_le_contravar; lra|]. replace 2 with (/ (/ 2)) by field. apply Rinv_le_contravar; lra. }
  assert (normal (val e / val s)) as N2.
  { unfold normal. rewrite Q, Rabs_pos_eq by nra. apply Rle_trans with (bpow radix2 (-1)).
    - apply bpow_le. lia.
    - change (bpow radix2 (-1)) with (/ 2). nra. }
  pose proof (rnd_error_normal _ N2) as E2. rewrite Q in E2. rewrite (Rabs_pos_eq (IZR n * / (1 + d))) in E2 by nra.
  pose proof (inv_factor d Hd) as Id. pose proof u_pos. pose proof u_small.
  assert (Rabs (rnd (IZR n * / (1 + d)) - IZR n) <= 4 * u * IZR n) as K.
  { replace (rnd (IZR n * / (1 + d)) - IZR n)
      with ((rnd (IZR n * / (1 + d)) - IZR n * / (1 + d)) + IZR n * (/ (1 + d) - 1)) by ring.
    eapply Rle_trans; [apply Rabs_triang|]. rewrite (Rabs_mult (IZR n)), (Rabs_pos_eq (IZR n)) by lra.
    assert (u * (IZR n * / (1 + d)) <= u * (IZR n * 2)) by (apply Rmult_le_compat_l; [lra|]; apply Rmult_le_compat_l; lra).
    assert (IZR n * Rabs (/ (1 + d) - 1) <= IZR n * ((1 + / 512) * u)) by (apply Rmult_le_compat_l; lra).
    assert (0 <= u * IZR n) by (apply Rmult_le_pos; lra). lra. }
  assert (finite (ndiv BN e s)) as Fq.
  { apply div_fin; auto. rewrite Q. apply Rle_lt_trans with (bpow radix2 54); [|apply bpow_lt; lia].
    replace (rnd (IZR n * / (1 + d))) with ((rnd (IZR n * / (1 + d)) - IZR n) + IZR n) by ring.
    eapply Rle_trans; [apply Rabs_triang|]. rewrite (Rabs_pos_eq (IZR n)) by lra.
    change (bpow radix2 54) with (IZR (2 * 2 ^ 53)). rewrite mult_IZR. nra. }
  split; [exact s0|]. split; [exact Fq|].
  destruct (div_val e s s0 Fq) as [_ V]. rewrite V, Q. exact K.
Qed.

Lemma eqb_finite x y : finite x -> neqb BN x y = true -> finite y /\ val x = val y.
Proof.
  intros F E. assert (finite y) as G.
  { unfold finite in *. cbn [neqb BN] in E. destruct x as [s|s| |s m e H], y as [s'|s'| |s' m' e' H']; cbn in *; try reflexivity; try discriminate;
      destruct s; try discriminate; destruct s'; discriminate. }
  split; [exact G|]. apply eqb_val; auto.
Qed.


Lemma step_of_extent e n : (1 <= n <= 2 ^ 53)%Z -> divisible e n ->
  finite (ndiv BN e (nofZ BN n)) /\ val (ndiv BN e (nofZ BN n)) = rnd (val e / IZR n).
Proof.
  intros B [Fe N]. assert (1 <= IZR n) as n1 by (apply IZR_le; lia).
  assert (val (nofZ BN n) = IZR n) as Vn by (apply ofZ_eq; lia).
  assert (finite (ndiv BN e (nofZ BN n))) as G.
  { apply div_fin; [exact Fe|rewrite Vn; lra|]. rewrite Vn.
    apply Rle_lt_trans with (Rabs (val e)); [|apply val_bound].
    assert (forall x, Rabs (rnd x) = rnd (Rabs x)) as RA.
    { intros x. unfold Rabs at 2. destruct (Rcase_abs x).
      - rewrite rnd_opp. apply Rabs_left1. rewrite <- rnd_0. apply rnd_le. lra.
      - apply Rabs_pos_eq. rewrite <- rnd_0. apply rnd_le. lra. }
    rewrite RA. rewrite <- (rnd_fmt (Rabs (val e))) at 1.
    - apply rnd_le. unfold Rdiv. rewrite Rabs_mult, Rabs_inv, (Rabs_pos_eq (IZR n)) by lra.
      rewrite <- (Rmult_1_r (Rabs (val e))) at 2. apply Rmult_le_compat_l; [apply Rabs_pos|].
      replace 1 with (/ 1) by field. apply Rinv_le_contravar; lra.
    - unfold Rabs. destruct (Rcase_abs (val e)); [apply generic_format_opp|]; apply fmt_val. }
  split; [exact G|]. destruct (div_val _ _ ltac:(rewrite Vn; lra) G) as [_ V]. rewrite V, Vn. reflexivity.
Qed.

Lemma extent_shape sh ex : counted sh -> (1 <= length sh)%nat -> length ex = length sh ->
  (forall i, (i < length sh)%nat -> divisible (item ex i) (nth i sh 0%Z)) ->
  exists g, construct BN (call (counts sh) None (Some (DFlt, ex)) None None None) = Ok g /\
    ndim BN g = length sh /\
    forall i, (i < length sh)%nat ->
      shape BN g i = nth i sh 0%Z /\ finite (spacing g i) /\
      val (spacing g i) = rnd (val (item ex i) / IZR (nth i sh 0%Z)) /\
      val (middle g i) = 0 /\ natural_order g i /\ center_at_index BN g i = true.
Proof.
  intros C P L1 Q. set (d := length sh) in *.
  destruct (to_ndim_vec d DInt (map (nofZ BN) sh)) as (vs & E1 & T1 & A1); [rewrite map_length; reflexivity|exact P|].
  destruct (to_ndim_vec d DFlt ex L1 P) as (ve & E3 & T3 & A3).
  assert (ndim_of BN (call (counts sh) None (Some (DFlt, ex)) None None None) = d) as N.
  { unfold ndim_of. cbn [a_ndim call counts a_shape a_step a_extent a_first a_center a_last arg_size].
    rewrite map_length, L1. fold d. max_d. reflexivity. }
  assert (forall i, (i < d)%nat -> round_shape BN vs i = nth i sh 0%Z) as RS by (intros i Hi; apply round_count; auto).
  assert (forall i, (i < d)%nat -> (1 <= nth i sh 0 <= 2 ^ 53)%Z) as CB by (intros i Hi; apply counts_nth; auto).
  set (shv := {| tag := DInt; at_ := fun i => nofZ BN (round_shape BN vs i) |} : vec BN).
  assert (forall i, (i < d)%nat -> finite (at_ BN shv i) /\ val (at_ BN shv i) <> 0) as NZ.
  { intros i Hi. cbn [shv at_]. rewrite RS by exact Hi. pose proof (CB i Hi) as B. split; [apply ofZ_fin; lia|].
    rewrite ofZ_eq by lia. apply not_0_IZR. lia. }
  set (q := fun i => ndiv BN (at_ BN ve i) (at_ BN shv i)).
  assert (forall i, (i < d)%nat -> finite (q i) /\ val (q i) = rnd (val (item ex i) / IZR (nth i sh 0%Z))) as QS.
  { intros i Hi. unfold q. cbn [shv at_]. rewrite A3, RS by exact Hi. apply step_of_extent; [apply CB|apply Q]; exact Hi. }
  (* the step, possibly cast to integers *)
  set (stp := if vall d (fun i => neqb BN (q i) (nofZ BN (ntrunc (q i))))
              then {| tag := DInt; at_ := fun i => nofZ BN (ntrunc (q i)) |} else {| tag := DFlt; at_ := q |} : vec BN).
  assert (forall i, (i < d)%nat -> finite (at_ BN stp i) /\ val (at_ BN stp i) = val (q i)) as ST.
  { intros i Hi. unfold stp. destruct (vall d _) eqn:E; cbn [at_].
    - rewrite vall_true in E. specialize (E i Hi). destruct (eqb_finite _ _ (proj1 (QS i Hi)) E) as [G V]. auto.
    - split; [apply QS; exact Hi|reflexivity]. }
  unfold construct. rewrite N. cbn [call counts a_shape a_step a_extent a_first a_center a_last to_ndim_opt].
  rewrite E1, E3. cbn [rmap bind to_ndim_b call a_flat a_origin_at_center a_include_last a_center_at_index].
  unfold find_shape. cbn [v_shape v_extent v_step v_first v_center v_last py_step bind].
  unfold find_step. cbn [v_step v_extent]. fold shv. rewrite (vdiv_ok d ve shv NZ). cbn [bind at_].
  change (fun i : nat => ndiv BN (at_ BN ve i) (at_ BN shv i)) with q.
  change (vall d (fun i : nat => neqb BN (ndiv BN (at_ BN ve i) (at_ BN shv i)) (nofZ BN (ntrunc (ndiv BN (at_ BN ve i) (at_ BN shv i))))))
    with (vall d (fun i => neqb BN (q i) (nofZ BN (ntrunc (q i))))).
  match goal with |- context [let '(st, short) := ?x in _] => 
    assert (x = (stp, false)) as -> by (unfold stp; destruct (vall d _); reflexivity) end.
  unfold find_center. cbn [v_center v_first v_last bind py_step].
  unfold check_extent, check_last, check_first. cbn [v_extent v_last v_first py_step].
  assert (forall i, (i < d)%nat -> finite (at_ BN stp i) /\ val (at_ BN stp i) <> 0 /\
     finite (ndiv BN (at_ BN ve i) (at_ BN stp i)) /\
     Rabs (val (ndiv BN (at_ BN ve i) (at_ BN stp i)) - IZR (nth i sh 0%Z)) <= 4 * u * IZR (nth i sh 0%Z)) as RQ.
  { intros i Hi. destruct (ST i Hi) as [Fs Vs]. destruct (QS i Hi) as [_ Vq]. destruct (Q i Hi) as [Fe Ne].
    split; [exact Fs|]. rewrite A3 by exact Hi. apply requotient; auto. rewrite Vs. exact Vq. }
  rewrite (vdiv_ok d ve stp) by (intros i Hi; split; apply (RQ i Hi)). cbn [bind at_].
  assert (allclose BN d (fun i => ndiv BN (at_ BN ve i) (at_ BN stp i)) (fun i => nofZ BN (round_shape BN vs i)) = true) as AC.
  { unfold allclose. apply vall_true. intros i Hi. rewrite RS by exact Hi. destruct (RQ i Hi) as (_ & _ & F & K).
    apply isclose_count; auto. }
  rewrite AC. cbn [negb andb bind].
  eexists. split; [reflexivity|]. split; [reflexivity|].
  intros i Hi. cbn [shape]. split; [apply RS; exact Hi|]. destruct (ST i Hi) as [Fs Vs].
  split; [exact Fs|]. split; [unfold spacing; cbn [step at_]; rewrite Vs; apply QS; exact Hi|].
  split; [|split; reflexivity]. unfold middle. cbn [center at_ vconst]. apply ofZ_eq. lia.
Qed.

Lemma extent_read_back (g : grid BN) i (e : BN) : sized g i -> divisible e (shape BN g i) ->
  val (spacing g i) = rnd (val e / IZR (shape BN g i)) -> finite (extent BN g i) ->
  Rabs (val (extent BN g i) - val e) <= 3 * u * Rabs (val e) + eta.
Proof.
  intros S [Fe N] V F. unfold sized in S. unfold extent in *. fold (spacing g i) in F |- *.
  destruct (mul_val _ _ F) as (_ & _ & W). rewrite ofZ_eq in W by lia. rewrite W, V.
  assert (1 <= IZR (shape BN g i)) as n1 by (apply IZR_le; lia).
  destruct (normal_factor _ N) as (d & Hd & ->). pose proof (factor_pos d Hd).
  replace (IZR (shape BN g i) * (val e / IZR (shape BN g i) * (1 + d))) with (val e * (1 + d)) by (field; lra).
  pose proof (rnd_error (val e * (1 + d))) as E. pose proof u_pos. pose proof u_small. pose proof smallest_pos.
  replace (rnd (val e * (1 + d)) - val e) with ((rnd (val e * (1 + d)) - val e * (1 + d)) + val e * d) by ring.
  eapply Rle_trans; [apply Rabs_triang|]. rewrite Rabs_mult in E |- *.
  rewrite (Rabs_pos_eq (1 + d)) in E by lra. pose proof (Rabs_pos (val e)) as A.
  assert (u * (Rabs (val e) * (1 + d)) <= u * (Rabs (val e) * 2)).
  { apply Rmult_le_compat_l; [lra|]. apply Rmult_le_compat_l; lra. }
  assert (Rabs (val e) * Rabs d <= Rabs (val e) * u) by (apply Rmult_le_compat_l; lra).
  lra.
Qed.

(** Grids built from a shape, a step and possibly a center, with any flags. *)
Lemma given_flags (a : args BN) d sh (ds dc : dt) st (ce : option (list BN)) fl oac cai :
  (1 <= d)%nat -> length sh = d -> counted sh -> length st = d ->
  (forall l, ce = Some l -> length l = d) ->
  a_shape BN a = Some (AVector BN DInt (map (nofZ BN) sh)) -> a_step BN a = Some (AVector BN ds st) ->
  a_center BN a = match ce with Some l => Some (AVector BN dc l) | None => None end ->
  a_extent BN a = None -> a_first BN a = None -> a_last BN a = None -> a_ndim BN a = None ->
  to_ndim_b d (a_flat BN a) = Ok fl -> to_ndim_b d (a_origin_at_center BN a) = Ok oac ->
  to_ndim_b d (a_center_at_index BN a) = Ok cai -> to_ndim_b d (a_include_last BN a) = Ok (fun _ => false) ->
  exists g, construct BN a = Ok g /\ ndim BN g = d /\ multidimensional BN g = true /\ short_step BN g = false /\
    forall i, (i < d)%nat ->
      shape BN g i = nth i sh 0%Z /\ spacing g i = item st i /\
      middle g i = match ce with Some l => item l i | None => nofZ BN 0 end /\
      flat BN g i = fl i /\ origin_at_center BN g i = oac i /\ center_at_index BN g i = cai i.
Proof.
  intros P L0 C L1 L2 H1 H2 H3 H4 H5 H6 H7 Bf Bo Bc Bi.
  destruct (to_ndim_vec d DInt (map (nofZ BN) sh)) as (vs & E1 & T1 & A1); [rewrite map_length; exact L0|exact P|].
  destruct (to_ndim_vec d ds st L1 P) as (vt & E2 & T2 & A2).
  assert (ndim_of BN a = d) as N.
  { unfold ndim_of. rewrite H1, H2, H3, H4, H5, H6, H7. cbn [arg_size]. rewrite map_length, L0, L1.
    destruct ce as [l|]; cbn [arg_size]; [rewrite (L2 l eq_refl)|]; max_d; reflexivity. }
  assert (multidimensional_of BN a = true) as M by (unfold multidimensional_of; rewrite H1; reflexivity).
  assert (exists v, to_ndim_opt BN d (a_center BN a) = Ok v /\
     match ce, v with Some l, Some w => forall i, (i < d)%nat -> at_ BN w i = item l i | None, None => True | _, _ => False end) as (vc & E3 & A3).
  { rewrite H3. destruct ce as [l|].
    - destruct (to_ndim_vec d dc l (L2 l eq_refl) P) as (vc & E & T & A). exists (Some vc). cbn [to_ndim_opt]. rewrite E. split; [reflexivity|exact A].
    - exists None. split; [reflexivity|exact I]. }
  unfold construct. rewrite N, H1, H2, H4, H5, H6, E3. cbn [to_ndim_opt]. rewrite E1, E2. cbn [rmap bind].
  rewrite Bf, Bo, Bc, Bi. cbn [bind].
  unfold find_shape. cbn [v_shape bind]. unfold find_step. cbn [v_step bind]. unfold find_center. cbn [v_center v_first v_last bind].
  assert (forall i, (i < d)%nat -> round_shape BN vs i = nth i sh 0%Z) as RS by (intros i Hi; subst d; apply round_count; auto).
  destruct ce as [l|], vc as [vc|]; try contradiction; cbn [bind];
    unfold check_extent, check_last, check_first; cbn [v_extent v_last v_first bind py_step];
    rewrite M; (eexists; split; [reflexivity|]; split; [reflexivity|]; split; [reflexivity|]; split; [reflexivity|]);
    intros i Hi; cbn [shape flat origin_at_center center_at_index];
    (split; [apply RS; exact Hi|]; split; [apply A2; exact Hi|]; split; [|repeat split; reflexivity]).
  - apply A3. exact Hi.
  - reflexivity.
Qed.


Lemma item_map (f : nat -> BN) n i : (i < n)%nat -> item (map f (axes n)) i = f i.
Proof. intros H. unfold item. apply nth_error_nth_map_axes. exact H. Qed.
Lemma flags_of (f : nat -> bool) n : exists v, to_ndim_b n (BVector (map f (axes n))) = Ok v /\ forall i, (i < n)%nat -> v i = f i.
Proof.
  destruct (to_ndim_b_list n (map f (axes n))) as (v & E & H); [rewrite map_length; unfold axes; apply seq_length|].
  exists v. split; [exact E|]. intros i Hi. rewrite H by exact Hi. apply nth_error_nth_map_axes. exact Hi.
Qed.

Lemma view_flags g fl oac : ordinary g ->
  (fl = flag_arg BN g (flat BN g) \/ exists b, fl = BScalar b) ->
  (oac = flag_arg BN g (origin_at_center BN g) \/ exists b, oac = BScalar b) ->
  forall a, a_shape BN a = a_shape BN (dict BN g) -> a_step BN a = a_step BN (dict BN g) ->
    a_center BN a = a_center BN (dict BN g) -> a_extent BN a = None -> a_first BN a = None -> a_last BN a = None ->
    a_ndim BN a = None -> a_flat BN a = fl -> a_origin_at_center BN a = oac ->
    a_center_at_index BN a = a_center_at_index BN (dict BN g) -> a_include_last BN a = BScalar false ->
  exists h, construct BN a = Ok h /\ ndim BN h = ndim BN g /\ ordinary h /\
    forall i, (i < ndim BN g)%nat ->
      shape BN h i = shape BN g i /\ spacing h i = spacing g i /\ middle h i = middle g i /\
      center_at_index BN h i = center_at_index BN g i /\
      origin_at_center BN h i = match oac with BScalar b => b | BVector _ => origin_at_center BN g i end.
Proof.
  intros (P & M & Sh & S) Hf Ho a H1 H2 H3 H4 H5 H6 H7 H8 H9 H10 H11.
  assert (exists v, to_ndim_b (ndim BN g) fl = Ok v) as (vf & Ef).
  { destruct Hf as [-> | [b ->]]; [|exists (fun _ => b); reflexivity]. unfold flag_arg. rewrite M.
    destruct (flags_of (flat BN g) (ndim BN g)) as (v & E & _). exists v. exact E. }
  assert (exists v, to_ndim_b (ndim BN g) oac = Ok v /\ forall i, (i < ndim BN g)%nat ->
            v i = match oac with BScalar b => b | BVector _ => origin_at_center BN g i end) as (vo & Eo & Ao).
  { destruct Ho as [-> | [b ->]]; [|exists (fun _ => b); split; reflexivity]. unfold flag_arg. rewrite M.
    destruct (flags_of (origin_at_center BN g) (ndim BN g)) as (v & E & A). exists v. split; [exact E|exact A]. }
  destruct (flags_of (center_at_index BN g) (ndim BN g)) as (vc & Ec & Ac).
  destruct (given_flags a (ndim BN g) (map (shape BN g) (axes (ndim BN g))) (tag BN (step BN g)) (tag BN (center BN g))
              (map (at_ BN (step BN g)) (axes (ndim BN g))) (Some (map (at_ BN (center BN g)) (axes (ndim BN g)))) vf vo vc)
    as (h & E & Nd & Mu & Sst & A); auto.
  - rewrite map_length. apply seq_length.
  - unfold counted. apply List.Forall_forall. intros n Hn. apply in_map_iff in Hn. destruct Hn as (i & <- & Hi).
    unfold axes in Hi. rewrite in_seq in Hi. apply S. lia.
  - rewrite map_length. apply seq_length.
  - intros l [= <-]. rewrite map_length. apply seq_length.
  - rewrite H1. cbn [dict a_shape]. unfold vec_arg. rewrite M, map_map. reflexivity.
  - rewrite H2. cbn [dict a_step]. unfold step_arg. rewrite M, Sh. reflexivity.
  - rewrite H3. cbn [dict a_center]. unfold vec_arg. rewrite M. reflexivity.
  - rewrite H8. exact Ef.
  - rewrite H9. exact Eo.
  - rewrite H10. cbn [dict a_center_at_index]. unfold flag_arg. rewrite M. exact Ec.
  - rewrite H11. reflexivity.
  - exists h. split; [exact E|]. split; [exact Nd|].
    assert (forall i, (i < ndim BN g)%nat -> shape BN h i = shape BN g i) as AS.
    { intros i Hi. destruct (A i Hi) as (B1 & _). rewrite B1. apply nth_error_nth_map_axes. exact Hi. }
    split.
    + refine (conj _ (conj Mu (conj Sst _))); rewrite Nd; [exact P|]. intros i Hi. unfold sized. rewrite AS by exact Hi. apply S. exact Hi.
    + intros i Hi. destruct (A i Hi) as (B1 & B2 & B3 & B4 & B5 & B6).
      refine (conj (AS i Hi) (conj _ (conj _ (conj _ _)))).
      * rewrite B2. apply item_map. exact Hi.
      * rewrite B3. apply item_map. exact Hi.
      * rewrite B6. apply Ac. exact Hi.
      * rewrite B5. apply Ao. exact Hi.
Qed.

(** Frequency grids. *)

Lemma frequency_step n s : (1 <= n <= 2 ^ 53)%Z -> finite s ->
  bpow radix2 (-1000) <= Rabs (IZR n * val s) <= bpow radix2 1000 ->
  let e := nmul BN (nofZ BN n) s in
  finite e /\ val e <> 0 /\ finite (ndiv BN (nofZ BN 1) e) /\
  Rabs (val (ndiv BN (nofZ BN 1) e) * (IZR n * val s) - 1) <= 3 * u.
Proof.
  intros B Fs [L U] e. set (x := IZR n * val s) in *.
  assert (normal x) as N by (unfold normal; eapply Rle_trans; [|exact L]; apply bpow_le; lia).
  destruct (normal_factor _ N) as (d & Hd & Ed). pose proof (factor_pos d Hd) as Fd. pose proof (inv_factor d Hd) as Id.
  pose proof u_pos. pose proof u_small.
  assert (0 < Rabs x) as X by (eapply Rlt_le_trans; [apply (bpow_gt_0 radix2 (-1000))|exact L]).
  assert (x <> 0) as X0 by (intros Z; rewrite Z, Rabs_R0 in X; lra).
  assert (Rabs (rnd x) <= bpow radix2 1001) as RU.
  { rewrite Ed, Rabs_mult, (Rabs_pos_eq (1 + d)) by lra. change (bpow radix2 1001) with (bpow radix2 (1000 + 1)).
    rewrite bpow_plus. change (bpow radix2 1) with 2. apply Rmult_le_compat; lra. }
  assert (finite e) as Fe.
  { apply mul_fin; [apply ofZ_fin; lia|exact Fs|]. rewrite ofZ_eq by lia. fold x.
    eapply Rle_lt_trans; [exact RU|]. apply bpow_lt. lia. }
  destruct (mul_val _ _ Fe) as (_ & _ & Ve). rewrite ofZ_eq in Ve by lia. fold x e in Ve.
  assert (val e <> 0) as e0 by (rewrite Ve, Ed; apply Rmult_integral_contrapositive_currified; lra).
  assert (val (nofZ BN 1) = 1) as V1 by (apply ofZ_eq; lia).
  assert (normal (1 / val e)) as N2.
  { unfold normal, Rdiv. rewrite Rmult_1_l, Rabs_inv, Ve.
    apply Rle_trans with (bpow radix2 (-1001)); [apply bpow_le; lia|].
    change (bpow radix2 (-1001)) with (bpow radix2 (- (1001))). rewrite bpow_opp. apply Rinv_le_contravar; [|exact RU].
    apply Rabs_pos_lt. rewrite <- Ve. exact e0. }
  destruct (normal_factor _ N2) as (c & Hc & Ec). pose proof (factor_pos c Hc) as Fc.
  assert (Rabs (rnd (1 / val e)) < bpow radix2 1024) as RB.
  { rewrite Ec, Rabs_mult, (Rabs_pos_eq (1 + c)) by lra. unfold Rdiv. rewrite Rmult_1_l, Rabs_inv.
    apply Rle_lt_trans with (bpow radix2 1001 * 2); [|change 2 with (bpow radix2 1); rewrite <- bpow_plus; apply bpow_lt; lia].
    apply Rmult_le_compat; [apply Rlt_le, Rinv_0_lt_compat, Rabs_pos_lt; exact e0|lra| |lra].
    rewrite Ve, Ed, Rabs_mult, (Rabs_pos_eq (1 + d)) by lra.
    change (bpow radix2 1001) with (bpow radix2 (- (-1001))). rewrite bpow_opp. apply Rinv_le_contravar; [apply bpow_gt_0|].
    change (bpow radix2 (-1001)) with (bpow radix2 (-1000 + -1)). rewrite bpow_plus. change (bpow radix2 (-1)) with (/ 2).
    apply Rmult_le_compat; try lra. apply Rlt_le, bpow_gt_0. }
  assert (finite (ndiv BN (nofZ BN 1) e)) as Ff.
  { apply div_fin; [apply ofZ_fin; lia|exact e0|]. rewrite V1. exact RB. }
  refine (conj Fe (conj e0 (conj Ff _))).
  destruct (div_val _ _ e0 Ff) as [_ Vf]. rewrite Vf, V1, Ec, Ve, Ed.
  replace (1 / (x * (1 + d)) * (1 + c) * x - 1) with ((/ (1 + d) - 1) * (1 + c) + c) by (field; lra).
  eapply Rle_trans; [apply Rabs_triang|]. rewrite Rabs_mult, (Rabs_pos_eq (1 + c)) by lra.
  assert (Rabs (/ (1 + d) - 1) * (1 + c) <= (1 + / 512) * u * (1 + / 1024)) by (apply Rmult_le_compat; try lra; apply Rabs_pos).
  lra.
Qed.

Lemma frequencies g : ordinary g -> (forall i, (i < ndim BN g)%nat -> invertible g i) ->
  exists f, f_grid BN g = Ok f /\ ndim BN f = ndim BN g /\ ordinary f /\
    forall i, (i < ndim BN g)%nat ->
      shape BN f i = shape BN g i /\ fft_order f i /\ center_at_index BN f i = true /\
      finite (spacing f i) /\ finite (middle f i) /\ val (middle f i) = 0 /\
      Rabs (val (spacing f i) * (IZR (shape BN g i) * val (spacing g i)) - 1) <= 3 * u.
Proof.
  intros O Inv. pose proof O as (P & M & Sh & S).
  assert (forall i, (i < ndim BN g)%nat -> finite (extent BN g i) /\ val (extent BN g i) <> 0 /\
     finite (ndiv BN (nofZ BN 1) (extent BN g i)) /\
     Rabs (val (ndiv BN (nofZ BN 1) (extent BN g i)) * (IZR (shape BN g i) * val (spacing g i)) - 1) <= 3 * u) as K.
  { intros i Hi. destruct (Inv i Hi) as [F B]. apply frequency_step; auto. apply S. exact Hi. }
  unfold f_grid. rewrite M. rewrite vdiv_ok by (intros i Hi; split; apply (K i Hi)). cbn [bind at_ tag vconst].
  destruct (flags_of (flat BN g) (ndim BN g)) as (vf & Ef & _).
  match goal with |- context [construct BN ?a] =>
    destruct (given_flags a (ndim BN g) (map (shape BN g) (axes (ndim BN g))) DFlt DFlt
              (map (fun i => ndiv BN (nofZ BN 1) (extent BN g i)) (axes (ndim BN g))) None vf (fun _ => false) (fun _ => true))
      as (h & E & Nd & Mu & Sst & A); cbn [a_shape a_step a_center a_extent a_first a_last a_ndim a_flat a_origin_at_center a_center_at_index a_include_last]; auto end.
  - rewrite map_length. apply seq_length.
  - unfold counted. apply List.Forall_forall. intros n Hn. apply in_map_iff in Hn. destruct Hn as (i & <- & Hi).
    unfold axes in Hi. rewrite in_seq in Hi. apply S. lia.
  - rewrite map_length. apply seq_length.
  - intros l. discriminate.
  - unfold vec_arg. rewrite M, map_map. reflexivity.
  - unfold vec_arg. rewrite M. reflexivity.
  - unfold flag_arg. rewrite M. exact Ef.
  - exists h. split; [exact E|]. split; [exact Nd|].
    assert (forall i, (i < ndim BN g)%nat -> shape BN h i = shape BN g i) as AS.
    { intros i Hi. destruct (A i Hi) as (B1 & _). rewrite B1. apply nth_error_nth_map_axes. exact Hi. }
    split.
    + refine (conj _ (conj Mu (conj Sst _))); rewrite Nd; [exact P|]. intros i Hi. unfold sized. rewrite AS by exact Hi. apply S. exact Hi.
    + intros i Hi. destruct (A i Hi) as (B1 & B2 & B3 & B4 & B5 & B6). destruct (K i Hi) as (_ & _ & Ff & Kf).
      rewrite B2, B3, item_map by exact Hi.
      refine (conj (AS i Hi) (conj B5 (conj B6 (conj Ff (conj _ (conj _ Kf)))))); [apply ofZ_fin|apply ofZ_eq]; lia.
Qed.
