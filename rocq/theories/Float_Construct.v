(** Construction of grids in double precision. *)
From Coq Require Import ZArith Reals Lia Lra Psatz List.
From Flocq Require Import Core.Core IEEE754.BinarySingleNaN.
From Verif Require Import Base Num Grid_Model Grid_Proofs Float_Model Float_Spec Float_Basics Float_Proofs.
Local Open Scope R_scope.

Local Notation u := unit_roundoff.
Local Notation nth0 i l := (item l i).

Lemma to_ndim_vec d t l : length l = d -> (1 <= d)%nat ->
  exists v, to_ndim BN d (AVector BN t l) = Ok v /\ tag BN v = t /\ forall i, (i < d)%nat -> at_ BN v i = nth0 i l.
Proof.
  intros L P. destruct l as [|x [|y l]].
  - cbn in L. lia.
  - eexists. split; [reflexivity|]. split; [reflexivity|]. intros i H. cbn in L. assert (i = 0%nat) as -> by lia. reflexivity.
  - eexists. unfold to_ndim. rewrite L, Nat.eqb_refl. split; [reflexivity|]. split; reflexivity.
Qed.

Lemma counts_nth l i : counted l -> (i < length l)%nat ->
  (1 <= nth i l 0 <= 2 ^ 53)%Z /\ nth0 i (map (nofZ BN) l) = nofZ BN (nth i l 0%Z).
Proof.
  intros C H. split.
  - unfold counted in C. rewrite List.Forall_forall in C. apply C, nth_In. exact H.
  - apply map_nth.
Qed.
Lemma round_count l i v : counted l -> (i < length l)%nat -> at_ BN v i = nth0 i (map (nofZ BN) l) ->
  round_shape BN v i = nth i l 0%Z.
Proof.
  intros C H E. destruct (counts_nth l i C H) as [B E2]. unfold round_shape. rewrite E, E2.
  rewrite ceil_val by (apply ofZ_fin; lia). rewrite ofZ_eq by lia. rewrite Zceil_IZR. lia.
Qed.

Lemma vdiv_ok d a b : (forall i, (i < d)%nat -> finite (at_ BN b i) /\ val (at_ BN b i) <> 0) ->
  vdiv BN d a b = Ok {| tag := DFlt; at_ := fun i => ndiv BN (at_ BN a i) (at_ BN b i) |}.
Proof.
  intros H. unfold vdiv. rewrite (proj2 (vall_true _ _)); [reflexivity|].
  intros i Hi. destruct (H i Hi) as [F N]. apply Bool.negb_true_iff, eqb_val_false; [exact F|apply ofZ_fin; lia|].
  rewrite ofZ_eq by lia. exact N.
Qed.

Ltac max_d := repeat rewrite ?Nat.max_id, ?Nat.max_0_r, ?Nat.max_0_l.

(** [Grid(shape=, step=, center=)] *)
Lemma given_exact sh (ds dc : dt) st ce :
  counted sh -> (1 <= length sh)%nat -> length st = length sh -> length ce = length sh ->
  exists g, construct BN (call (counts sh) (Some (ds, st)) None None (Some (dc, ce)) None) = Ok g /\
    ndim BN g = length sh /\ multidimensional BN g = true /\ short_step BN g = false /\
    forall i, (i < length sh)%nat ->
      shape BN g i = nth i sh 0%Z /\ spacing g i = nth0 i st /\ middle g i = nth0 i ce /\
      natural_order g i /\ center_at_index BN g i = true.
Proof.
  intros C P L1 L2. set (d := length sh) in *.
  destruct (to_ndim_vec d DInt (map (nofZ BN) sh)) as (vs & E1 & T1 & A1); [rewrite map_length; reflexivity|exact P|].
  destruct (to_ndim_vec d ds st L1 P) as (vt & E2 & T2 & A2).
  destruct (to_ndim_vec d dc ce L2 P) as (vc & E3 & T3 & A3).
  assert (ndim_of BN (call (counts sh) (Some (ds, st)) None None (Some (dc, ce)) None) = d) as N.
  { unfold ndim_of. cbn [a_ndim call counts a_shape a_step a_extent a_first a_center a_last arg_size].
    rewrite map_length, L1, L2. fold d. max_d. reflexivity. }
  unfold construct. rewrite N. cbn [call counts a_shape a_step a_extent a_first a_center a_last to_ndim_opt].
  rewrite E1, E2, E3. cbn [rmap bind to_ndim_b call a_flat a_origin_at_center a_include_last a_center_at_index].
  unfold find_shape. cbn [v_shape bind]. unfold find_step. cbn [v_step bind]. unfold find_center. cbn [v_center bind].
  unfold check_extent, check_last, check_first. cbn [v_extent v_last v_first bind py_step].
  eexists. split; [reflexivity|]. split; [reflexivity|]. split; [reflexivity|]. split; [reflexivity|].
  intros i Hi. cbn [shape]. split; [apply round_count; auto|]. split; [apply A2; exact Hi|]. split; [apply A3; exact Hi|].
  split; reflexivity.
Qed.

(** [Grid(shape=, first=, step=)] *)
Lemma first_step sh (ds df : dt) st fi :
  counted sh -> (1 <= length sh)%nat -> length st = length sh -> length fi = length sh -> join df ds = DFlt ->
  (forall i, (i < length sh)%nat -> fits (nth0 i fi) (nth0 i st) (nth i sh 0%Z)) ->
  exists g, construct BN (call (counts sh) (Some (ds, st)) None (Some (df, fi)) None None) = Ok g /\
    ndim BN g = length sh /\ multidimensional BN g = true /\ short_step BN g = false /\
    forall i, (i < length sh)%nat ->
      shape BN g i = nth i sh 0%Z /\ spacing g i = nth0 i st /\
      middle g i = nadd BN (nth0 i fi) (nmul BN (nofZ BN (nth i sh 0 / 2)%Z) (nth0 i st)) /\
      natural_order g i /\ center_at_index BN g i = true.
Proof.
  intros C P L1 L2 J Fit. set (d := length sh) in *.
  destruct (to_ndim_vec d DInt (map (nofZ BN) sh)) as (vs & E1 & T1 & A1); [rewrite map_length; reflexivity|exact P|].
  destruct (to_ndim_vec d ds st L1 P) as (vt & E2 & T2 & A2).
  destruct (to_ndim_vec d df fi L2 P) as (vf & E3 & T3 & A3).
  assert (ndim_of BN (call (counts sh) (Some (ds, st)) None (Some (df, fi)) None None) = d) as N.
  { unfold ndim_of. cbn [a_ndim call counts a_shape a_step a_extent a_first a_center a_last arg_size].
    rewrite map_length, L1, L2. fold d. max_d. reflexivity. }
  unfold construct. rewrite N. cbn [call counts a_shape a_step a_extent a_first a_center a_last to_ndim_opt].
  rewrite E1, E2, E3. cbn [rmap bind to_ndim_b call a_flat a_origin_at_center a_include_last a_center_at_index].
  unfold find_shape. cbn [v_shape bind]. unfold find_step. cbn [v_step bind]. unfold find_center. cbn [v_center v_first bind py_step].
  assert (is_int (tag BN (vadd BN vf vt)) = false) as TI by (cbn; rewrite T2, T3, J; reflexivity).
  cbn [andb]. unfold cast_back. rewrite TI. cbn [andb bind].
  unfold check_extent, check_last, check_first. cbn [v_extent v_last v_first bind py_step at_].
  rewrite (proj2 (vall_true _ _)).
  2: { intros i Hi. apply eqb_refl. unfold center_offset. rewrite A2, A3 by exact Hi.
       rewrite (round_count sh i) by auto. apply Fit. exact Hi. }
  cbn [bind]. eexists. split; [reflexivity|]. split; [reflexivity|]. split; [reflexivity|]. split; [reflexivity|].
  intros i Hi. cbn [shape]. split; [apply round_count; auto|]. split; [apply A2; exact Hi|].
  split; [|split; reflexivity].
  unfold middle. cbn [center at_]. unfold center_offset. rewrite A2, A3, (round_count sh i) by auto. reflexivity.
Qed.

(** How far the [first] property can be from the argument. *)
Lemma first_read_back (g : grid BN) i (f : BN) : sized g i -> center_at_index BN g i = true ->
  middle g i = nadd BN f (nmul BN (nofZ BN (shape BN g i / 2)) (spacing g i)) -> finite (first BN g i) ->
  Rabs (val (first BN g i) - val f) <= u * (Rabs (val (middle g i)) + Rabs (val (first BN g i))).
Proof.
  intros S C E F. unfold sized in S. unfold first in *. rewrite C in *. cbn [negb andb] in *.
  fold (spacing g i) (middle g i) in F |- *.
  destruct (sub_val _ _ F) as (Fm & Fp & V). destruct (mul_val _ _ Fp) as (Fs & Fn & Vp).
  pose proof Fm as Fm'. rewrite E in Fm'. destruct (add_val _ _ Fm') as (Ff & Fq & Vm). rewrite <- E in Vm.
  destruct (mul_val _ _ Fq) as (_ & _ & Vq).
  assert (val (nmul BN (nofZ BN (shape BN g i / 2)) (spacing g i)) = val (nmul BN (spacing g i) (nofZ BN (shape BN g i / 2)))) as Q.
  { rewrite Vp, Vq. f_equal. ring. }
  rewrite Q in Vm. set (p := val (nmul BN (spacing g i) (nofZ BN (shape BN g i / 2)))) in *.
  assert (fmt p) as Fp' by apply fmt_val.
  pose proof (rnd_error_add_round (val f) p (fmt_val f) Fp') as E1. rewrite <- Vm in E1.
  assert (fmt (- p)) as Fn' by (apply generic_format_opp; exact Fp').
  pose proof (rnd_error_add_round (val (middle g i)) (- p) (fmt_val _) Fn') as E2.
  change (val (middle g i) + - p) with (val (middle g i) - p) in E2. rewrite <- V in E2.
  set (x := val (nsub BN (middle g i) (nmul BN (spacing g i) (nofZ BN (shape BN g i / 2))))) in *.
  replace (x - val f) with ((x - (val (middle g i) - p)) + (val (middle g i) - (val f + p))) by ring.
  eapply Rle_trans; [apply Rabs_triang|]. lra.
Qed.

(** [Grid(step=, extent=)]: the number of points. *)
Lemma sign_pos x : finite x -> 0 < val x -> nsign x = nofZ BN 1.
Proof.
  intros F P. unfold nsign. assert (finite (nofZ BN 0)) as F0 by (apply ofZ_fin; lia).
  assert (val (nofZ BN 0) = 0) as Z0 by (apply ofZ_eq; lia).
  replace (neqb BN x (nofZ BN 0)) with false by (symmetry; apply eqb_val_false; auto; rewrite Z0; lra).
  replace (nleb BN (nofZ BN 0) x) with true by (symmetry; apply leb_val; auto; rewrite Z0; lra). reflexivity.
Qed.
Lemma one_mul x : finite x -> finite (nmul BN (nofZ BN 1) x) /\ val (nmul BN (nofZ BN 1) x) = val x.
Proof.
  intros F. assert (val (nofZ BN 1) = 1) as V1 by (apply ofZ_eq; lia).
  assert (rnd (val (nofZ BN 1) * val x) = val x) as E by (rewrite V1, Rmult_1_l; apply rnd_fmt, fmt_val).
  assert (finite (nmul BN (nofZ BN 1) x)) as G.
  { apply mul_fin; auto. apply ofZ_fin; lia. rewrite E. apply val_bound. }
  split; [exact G|]. destruct (mul_val _ _ G) as (_ & _ & V). rewrite V. exact E.
Qed.
Lemma abs_pos x : finite x -> 0 < val x -> nabs x = x.
Proof.
  intros F P. unfold nabs. replace (nleb BN (nofZ BN 0) x) with true; [reflexivity|].
  symmetry. apply leb_val; auto. apply ofZ_fin; lia. rewrite ofZ_eq by lia. lra.
Qed.


Lemma quotient_fin e s e' : quotient_ok e s -> finite e' -> val e' = val e ->
  finite (ndiv BN e' s) /\ val (ndiv BN e' s) = rnd (quotient e s).
Proof.
  intros (Fe & Fs & Pe & Ps & B) F' V'. unfold quotient in *.
  assert (finite (ndiv BN e' s)) as G.
  { apply div_fin; auto; [lra|]. rewrite V'. rewrite Rabs_pos_eq.
    - eapply Rle_lt_trans; [apply rnd_le, B|]. rewrite rnd_fmt by (apply fmt_IZR; lia).
      change (IZR (2 ^ 53)) with (bpow radix2 53). apply bpow_lt. lia.
    - rewrite <- rnd_0. apply rnd_le. apply Rlt_le, Rdiv_lt_0_compat; assumption. }
  split; [exact G|]. destruct (div_val e' s ltac:(lra) G) as [_ V]. rewrite V, V'. reflexivity.
Qed.

Lemma ceil_rounded q : 0 < q <= IZR (2 ^ 53) ->
  (Zceil q - 1 <= Zceil (rnd q) <= Zceil q)%Z /\ (0 <= Zceil (rnd q) <= 2 ^ 53)%Z /\
  (IZR (Zceil (rnd q)) >= rnd q).
Proof.
  intros [P B].
  assert (0 <= Zceil q - 1)%Z as Z0 by (assert (0 < Zceil q)%Z; [apply lt_IZR; pose proof (Zceil_ub q); lra|lia]).
  assert (Zceil q <= 2 ^ 53)%Z as Z1 by (rewrite <- (Zceil_IZR (2 ^ 53)); apply Zceil_le; exact B).
  assert (rnd q <= IZR (Zceil q)) as U.
  { rewrite <- (rnd_fmt (IZR (Zceil q))) by (apply fmt_IZR; lia). apply rnd_le, Zceil_ub. }
  assert (IZR (Zceil q - 1) <= rnd q) as L.
  { rewrite <- (rnd_fmt (IZR (Zceil q - 1))) by (apply fmt_IZR; lia). apply rnd_le.
    rewrite minus_IZR. pose proof (Zceil_lb q). lra. }
  assert (Zceil (rnd q) <= Zceil q)%Z as U' by (rewrite <- (Zceil_IZR (Zceil q)); apply Zceil_le; exact U).
  assert (Zceil q - 1 <= Zceil (rnd q))%Z as L' by (rewrite <- (Zceil_IZR (Zceil q - 1)); apply Zceil_le; exact L).
  refine (conj (conj L' U') (conj (conj _ _) _)); try lia. apply Rle_ge, Zceil_ub.
Qed.

Lemma extent_step (ds de : dt) st ex : (1 <= length st)%nat -> length ex = length st ->
  (forall i, (i < length st)%nat -> quotient_ok (nth0 i ex) (nth0 i st)) ->
  exists g, construct BN (call None (Some (ds, st)) (Some (de, ex)) None None None) = Ok g /\
    ndim BN g = length st /\
    forall i, (i < length st)%nat ->
      shape BN g i = Z.max 1 (Zceil (rnd (quotient (nth0 i ex) (nth0 i st)))) /\ spacing g i = nth0 i st /\
      val (middle g i) = 0 /\ natural_order g i /\ center_at_index BN g i = true.
Proof.
  intros P L1 Q. set (d := length st) in *.
  destruct (to_ndim_vec d ds st eq_refl P) as (vt & E2 & T2 & A2).
  destruct (to_ndim_vec d de ex L1 P) as (ve & E3 & T3 & A3).
  assert (ndim_of BN (call None (Some (ds, st)) (Some (de, ex)) None None None) = d) as N.
  { unfold ndim_of. cbn [a_ndim call counts a_shape a_step a_extent a_first a_center a_last arg_size].
    rewrite L1. fold d. max_d. reflexivity. }
  set (ext := {| tag := join (tag BN vt) (tag BN ve);
                 at_ := fun i => nmul BN (nsign (at_ BN vt i)) (nabs (at_ BN ve i)) |}).
  assert (forall i, (i < d)%nat -> finite (at_ BN ext i) /\ val (at_ BN ext i) = val (nth0 i ex)) as X.
  { intros i Hi. destruct (Q i Hi) as (Fe & Fs & Pe & Ps & _). cbn [ext at_].
    rewrite A2, A3 by exact Hi. rewrite sign_pos, abs_pos by assumption. apply one_mul. exact Fe. }
  assert (forall i, (i < d)%nat -> finite (at_ BN vt i) /\ val (at_ BN vt i) <> 0) as NZ.
  { intros i Hi. destruct (Q i Hi) as (Fe & Fs & Pe & Ps & _). rewrite A2 by exact Hi. split; [exact Fs|lra]. }
  assert (forall i, (i < d)%nat -> nceil (ndiv BN (at_ BN ext i) (at_ BN vt i)) = Zceil (rnd (quotient (nth0 i ex) (nth0 i st)))) as CE.
  { intros i Hi. destruct (X i Hi) as [Fx Vx]. rewrite A2 by exact Hi.
    destruct (quotient_fin _ _ _ (Q i Hi) Fx Vx) as [G V]. rewrite ceil_val, V by exact G. reflexivity. }
  unfold construct. rewrite N. cbn [call counts a_shape a_step a_extent a_first a_center a_last to_ndim_opt].
  rewrite E2, E3. cbn [rmap bind to_ndim_b call a_flat a_origin_at_center a_include_last a_center_at_index].
  unfold find_shape. cbn [v_shape v_extent v_step v_first v_center v_last py_step bind]. fold ext.
  rewrite (vdiv_ok d ext vt NZ). cbn [bind v_shape]. unfold find_step. cbn [v_step bind].
  unfold find_center. cbn [v_center v_first v_last bind py_step].
  unfold check_extent, check_last, check_first. cbn [v_extent v_last v_first py_step]. rewrite (vdiv_ok d ext vt NZ). cbn [bind at_].
  set (sh := round_shape BN _).
  assert (vall d (fun i => Z.eqb (Z.max 1 (nceil (ndiv BN (at_ BN ext i) (at_ BN vt i)))) (sh i)) = true) as V.
  { apply vall_true. intros i Hi. apply Z.eqb_eq. reflexivity. }
  rewrite V. cbn [negb]. rewrite Bool.andb_false_r. cbn [bind].
  eexists. split; [reflexivity|]. split; [reflexivity|].
  intros i Hi. cbn [shape]. split; [unfold sh, round_shape; cbn [at_]; rewrite CE by exact Hi; reflexivity|].
  split; [apply A2; exact Hi|]. split; [|split; reflexivity].
  unfold middle. cbn [center at_ vconst]. apply ofZ_eq. lia.
Qed.
