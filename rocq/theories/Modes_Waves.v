(** Proofs about the fields of vectors: plane waves, polarization, detection. *)
From Coq Require Import Reals List Arith Bool ZArith Lia Lra ZifyNat.
Require Import Verif.Base Verif.Cplx Verif.CSum Verif.Field Verif.Fourier_Model Verif.Fourier_Spec Verif.Fourier_Proofs Verif.Vec_Model Verif.Matrix_Model Verif.Modes_Model Verif.Modes_Spec Verif.Modes_Proofs.
Import ListNotations.
Local Open Scope R_scope.
Local Open Scope C_scope.

(** ** Phases *)
Lemma cis_2PI_Z z : cis (2 * PI * IZR z) = 1.
Proof.
  destruct (Z_le_gt_dec 0 z) as [H|H].
  - rewrite <- (Z2Nat.id z H), <- INR_IZR_INZ. apply cis_2PI_nat.
  - replace (2 * PI * IZR z)%R with (- (2 * PI * IZR (- z)))%R by (rewrite opp_IZR; ring). rewrite cis_neg. rewrite <- (Z2Nat.id (- z)) by lia. rewrite <- INR_IZR_INZ, cis_2PI_nat. apply Cconj_R.
Qed.
Fixpoint sphase (s : list nat) (zs : list Z) (r : list nat) : R :=
  match s, zs, r with n :: s', z :: zs', i :: r' => (2 * PI * (IZR z * INR i) / INR n + sphase s' zs' r')%R | _, _, _ => 0%R end.
Lemma cis_phase s m r : inside s m -> inside s r -> cis (phase s m r) = cis (sphase s (signed s m) r).
Proof.
  intros Hm. revert r. induction Hm as [|n i s m Hi _ IH]; intros r Hr; inversion Hr as [|? j ? r' Hj Hr']; subst; [reflexivity|].
  cbn [phase signed sphase]. rewrite !cis_plus, (IH r' Hr'). f_equal. unfold k_index. destruct (Nat.ltb_spec (2 * i) n); [rewrite INR_IZR_INZ with (n := i); reflexivity|].
  rewrite minus_IZR, <- !INR_IZR_INZ. assert (0 < INR n)%R by (apply lt_0_INR; lia).
  replace (2 * PI * (INR i * INR j) / INR n)%R with (2 * PI * ((INR i - INR n) * INR j) / INR n + 2 * PI * IZR (Z.of_nat j))%R by (rewrite <- INR_IZR_INZ; field; lra).
  rewrite cis_plus, cis_2PI_Z. ring.
Qed.
Lemma sphase_opp s zs r : sphase s (map Z.opp zs) r = (- sphase s zs r)%R.
Proof. revert zs r. induction s as [|n s IH]; intros [|z zs] [|i r]; cbn [map sphase]; try lra. rewrite IH, opp_IZR. unfold Rdiv. ring. Qed.
Lemma sphase_kvec s st m r : length st = length s -> inside s m -> inside s r -> Forall (fun d => (0 < d)%R) st ->
  sphase s (signed s m) r = rsum (length s) (fun i => (kvec {| rshape := s; rstep := st |} i m * (INR (nth i r 0%nat) * nth i st 1))%R).
Proof.
  intros L Hm. revert st r L. induction Hm as [|n i s m Hi _ IH]; intros st r L Hr F; inversion Hr as [|? j ? r' Hj Hr']; subst; [reflexivity|].
  destruct st as [|d st]; [discriminate|]. injection L as L. inversion F as [|? ? D F']; subst. cbn [length]. rewrite rsum_shift. cbn [sphase signed nth]. rewrite (IH st r' L Hr' F').
  unfold kvec at 2. cbn [rshape rstep nth]. unfold k_axis. assert (0 < INR n)%R by (apply lt_0_INR; lia). f_equal. field. lra.
Qed.

(** ** Directions *)
Section Mode.
  Variables (o : optics) (j : nat).
  Hypotheses (V : valid o) (J : (j < n_modes o)%nat).
  Let m := mode o j.
  Let k0 := wavenumber o.
  Let g := transverse o.

  Lemma mode_k2 : (0 <= k2 g m < k0 * k0)%R /\ (0 < k0)%R.
  Proof.
    destruct (modes_sound o m V (mode_in o j J)) as [_ H]. pose proof V as (_ & _ & _ & _ & V5 & _). split; [split; [|exact H]|exact V5].
    apply rsum_nonneg. intros i _. nra.
  Qed.
  Lemma direction_squares : rsum 2 (fun i => (direction_t o j i * direction_t o j i)%R) = (k2 g m / (k0 * k0))%R.
  Proof.
    pose proof mode_k2 as [_ K]. pose proof V as (_ & V2 & _). unfold k2. change (rndim g) with (length (shape_of o)). fold g.
    assert (forall i, (i < length (shape_of o))%nat -> direction_t o j i = (kvec g i m / k0)%R) as D1.
    { intros i Hi. unfold direction_t. change (rndim (transverse o)) with (length (shape_of o)). destruct (Nat.ltb_spec i (length (shape_of o))); [reflexivity|lia]. }
    assert (forall i, (length (shape_of o) <= i)%nat -> direction_t o j i = 0%R) as D2.
    { intros i Hi. unfold direction_t. change (rndim (transverse o)) with (length (shape_of o)). destruct (Nat.ltb_spec i (length (shape_of o))); [lia|reflexivity]. }
    destruct (length (shape_of o)) as [|[|[|]]]; [| | |lia]; cbn [rsum].
    - rewrite (D2 0%nat), (D2 1%nat) by lia. field; lra.
    - rewrite (D1 0%nat), (D2 1%nat) by lia. field; lra.
    - rewrite (D1 0%nat), (D1 1%nat) by lia. field; lra.
  Qed.
  Lemma cosine_axial : cosine o j = (k_axial o m / k0)%R /\ (0 < cosine o j)%R /\ (cosine o j <= 1)%R /\ (cosine o j * cosine o j + rsum 2 (fun i => direction_t o j i * direction_t o j i) = 1)%R.
  Proof.
    pose proof mode_k2 as [[K1 K2] K0]. unfold cosine. rewrite direction_squares.
    assert (0 < k0 * k0)%R by nra. assert (k2 g m / (k0 * k0) < 1)%R by (apply (Rmult_lt_reg_r (k0 * k0)); [nra|]; unfold Rdiv; rewrite Rmult_assoc, Rinv_l by lra; lra).
    assert (0 <= k2 g m / (k0 * k0))%R by (apply Rmult_le_pos; [lra|apply Rlt_le, Rinv_0_lt_compat; lra]).
    rewrite Rmax_left by lra. split; [|split; [apply sqrt_lt_R0; lra|split]].
    - unfold k_axial. fold k0 g m. replace (1 - k2 g m / (k0 * k0))%R with ((k0 * k0 - k2 g m) / (k0 * k0))%R by (field; lra). rewrite sqrt_div_alt by lra. rewrite sqrt_square by lra. reflexivity.
    - rewrite <- sqrt_1 at 2. apply sqrt_le_1_alt. lra.
    - rewrite sqrt_sqrt by lra. lra.
  Qed.
  Lemma origin_phase_dot : origin_phase o j = rsum (rndim g) (fun i => (kvec g i m * nth i (tfirst o) 0)%R).
  Proof.
    pose proof mode_k2 as [_ K0]. unfold origin_phase. fold k0 g. rewrite <- rsum_scal. apply rsum_ext. intros i Hi. unfold direction_t. fold g. destruct (Nat.ltb_spec i (rndim g)); [|lia]. fold k0 m. field. lra.
  Qed.
  Lemma mode_phase x r : sampled o -> inside (shape_of o) r ->
    cis (origin_phase o j) * cis (wavenumber o * cosine o j * xpos o x) * cis (- phase (shape_of o) (rmode o j) r) = cis (k_dot_r o m x r).
  Proof.
    intros N Hr. pose proof mode_k2 as [_ K0]. pose proof V as (V1 & V2 & V3 & V4 & V5 & V6). destruct cosine_axial as (C1 & _). rewrite C1, origin_phase_dot.
    rewrite cis_neg, (cis_phase _ _ _ (modes_inside o _ (rmode_in o j J)) Hr), <- cis_neg, (rmode_opposite o j V N J), sphase_opp, Ropp_involutive.
    fold m. rewrite (sphase_kvec (shape_of o) (rstep g) m r V1 (modes_inside o _ (mode_in o j J)) Hr V4). rewrite <- !cis_plus. f_equal. unfold k_dot_r. fold k0 g.
    change {| rshape := shape_of o; rstep := rstep g |} with {| rshape := rshape g; rstep := rstep g |}. rewrite raster_eta. change (length (shape_of o)) with (rndim g).
    replace (k0 * (k_axial o m / k0) * xpos o x)%R with (k_axial o m * xpos o x)%R by (field; lra).
    transitivity (k_axial o m * xpos o x + (rsum (rndim g) (fun i => (kvec g i m * nth i (tfirst o) 0)%R) + rsum (rndim g) (fun i => (kvec g i m * (INR (nth i r 0%nat) * nth i (rstep g) 1))%R)))%R; [lra|].
    f_equal. rewrite <- rsum_plus. apply rsum_ext. intros i _. ring.
  Qed.
  (** ** Polarization *)
  Lemma frame : exists (s u0 u1 : R),
    (radial_mode o j 0%nat = u0 /\ radial_mode o j 1%nat = u1) /\
    (radial o j 0%nat = - s /\ radial o j 1%nat = cosine o j * u0 /\ radial o j 2%nat = cosine o j * u1)%R /\
    (direction o j 0 = cosine o j /\ direction o j 1 = s * u0 /\ direction o j 2 = s * u1)%R /\
    (cosine o j * cosine o j + s * s = 1)%R /\ ((u0 * u0 + u1 * u1 = 1)%R \/ (s = 0 /\ u0 = 0 /\ u1 = 0)%R).
  Proof.
    destruct cosine_axial as (_ & C2 & C3 & C4). cbn [rsum] in C4. set (a := cosine o j) in *. set (b0 := direction_t o j 0) in *. set (b1 := direction_t o j 1) in *.
    set (s := sqrt (b0 * b0 + b1 * b1)).
    assert (s * s = b0 * b0 + b1 * b1)%R as S2 by (apply sqrt_sqrt; nra). assert (0 <= s)%R as S0 by apply sqrt_pos.
    assert (sqrt (rsum 2 (fun i => (direction_t o j i * direction_t o j i)%R)) = s) as N2 by (unfold s; f_equal; cbn [rsum]; fold b0 b1; ring).
    assert (sqrt (rsum 3 (fun c => ((direction o j 0 * direction o j c - (if (c =? 0)%nat then 1 else 0)) * (direction o j 0 * direction o j c - (if (c =? 0)%nat then 1 else 0)))%R)) = s) as N3.
    { unfold s. f_equal. cbn [rsum Nat.eqb direction]. fold a b0 b1. nra. }
    assert (direction o j 1 = b0 /\ direction o j 2 = b1) as [D1 D2] by (split; reflexivity).
    unfold radial, radial_mode, normalize. rewrite N2, N3. cbn [Nat.eqb direction]. fold a b0 b1.
    destruct (Req_EM_T s 0) as [Es|Es].
    - assert (b0 = 0 /\ b1 = 0)%R as [B0 B1] by (split; nra). assert (a = 1)%R as A1 by nra.
      exists 0%R, 0%R, 0%R. rewrite B0, B1, A1, Es. repeat split; try lra; try (field; lra); right; repeat split; lra.
    - exists s, (b0 / s)%R, (b1 / s)%R. repeat split; try (field; lra).
      + rewrite Rplus_0_r. apply (Rmult_eq_reg_r s); [|exact Es]. unfold Rdiv. rewrite Rmult_assoc, Rinv_l by exact Es. nra.
      + nra.
      + left. apply (Rmult_eq_reg_r (s * s)); [|nra]. replace ((b0 / s * (b0 / s) + b1 / s * (b1 / s)) * (s * s))%R with (b0 * b0 + b1 * b1)%R by (field; exact Es). lra.
  Qed.
End Mode.

Lemma rotation (A S U0 U1 w0 w1 : C) : A * A + S * S = 1 -> (U0 * U0 + U1 * U1 = 1 \/ (S = 0 /\ U0 = 0 /\ U1 = 0)) ->
  let r := w0 * U0 + w1 * U1 in
  let e0 := r * - S in let e1 := r * (A * U0) + (w0 - r * U0) in let e2 := r * (A * U1) + (w1 - r * U1) in
  e0 * A + e1 * (S * U0) + e2 * (S * U1) = 0 /\
  (e0 * - S + e1 * (A * U0) + e2 * (A * U1)) = r.
Proof.
  intros HA [HU|(-> & -> & ->)]; cbv zeta; [|split; ring]. split.
  - transitivity ((S * A - S) * (w0 * U0 + w1 * U1) * (U0 * U0 + U1 * U1 - 1)); [ring|rewrite HU; ring].
  - transitivity ((w0 * U0 + w1 * U1) + (A * A + S * S - 1) * (w0 * U0 + w1 * U1) + (A * A - A) * (w0 * U0 + w1 * U1) * (U0 * U0 + U1 * U1 - 1)); [ring|rewrite HU, HA; ring].
Qed.
Lemma polarized o j w : vectorial o = true -> valid o -> (j < n_modes o)%nat -> exists (A S U0 U1 : R),
  (A * A + S * S = 1)%R /\ ((U0 * U0 + U1 * U1 = 1)%R \/ (S = 0 /\ U0 = 0 /\ U1 = 0)%R) /\
  (radial_mode o j 0%nat = U0 /\ radial_mode o j 1%nat = U1) /\
  (radial o j 0%nat = - S /\ radial o j 1%nat = A * U0 /\ radial o j 2%nat = A * U1)%R /\
  (direction o j 0 = A /\ direction o j 1 = S * U0 /\ direction o j 2 = S * U1)%R /\
  let r := w 0%nat * RtoC U0 + w 1%nat * RtoC U1 in
  polarize o j w 0%nat = r * - RtoC S /\ polarize o j w 1%nat = r * (RtoC A * RtoC U0) + (w 0%nat - r * RtoC U0) /\ polarize o j w 2%nat = r * (RtoC A * RtoC U1) + (w 1%nat - r * RtoC U1).
Proof.
  intros Ve V J. destruct (frame o j V J) as (s & u0 & u1 & (U0 & U1) & (R0 & R1 & R2) & (D0 & D1 & D2) & A & H).
  exists (cosine o j), s, u0, u1. repeat (split; [tauto|]). unfold polarize. rewrite Ve. cbn [csum]. rewrite U0, U1, R0, R1, R2, RtoC_opp, !RtoC_mult. repeat split; ring.
Qed.
Lemma lift_rotation (A S U0 U1 : R) : (A * A + S * S = 1)%R -> ((U0 * U0 + U1 * U1 = 1)%R \/ (S = 0 /\ U0 = 0 /\ U1 = 0)%R) ->
  RtoC A * RtoC A + RtoC S * RtoC S = 1 /\ (RtoC U0 * RtoC U0 + RtoC U1 * RtoC U1 = 1 \/ (RtoC S = 0 /\ RtoC U0 = 0 /\ RtoC U1 = 0)).
Proof.
  intros HA HU. split; [rewrite <- !RtoC_mult, <- RtoC_plus, HA; reflexivity|]. destruct HU as [HU|(-> & -> & ->)]; [left; rewrite <- !RtoC_mult, <- RtoC_plus, HU; reflexivity|right; auto].
Qed.
Lemma unpolarize_polarize o j w p : valid o -> (j < n_modes o)%nat -> (p < n_pol o)%nat -> unpolarize o j (polarize o j w) p = w p.
Proof.
  intros V J P. destruct (vectorial o) eqn:Ve; [|unfold unpolarize, polarize, n_pol in *; rewrite Ve in *; f_equal; lia].
  destruct (polarized o j w Ve V J) as (A & S & U0 & U1 & HA & HU & (M0 & M1) & (R0 & R1 & R2) & (D0 & D1 & D2) & P0 & P1 & P2).
  destruct (lift_rotation A S U0 U1 HA HU) as [HA' HU']. destruct (rotation (RtoC A) (RtoC S) (RtoC U0) (RtoC U1) (w 0%nat) (w 1%nat) HA' HU') as [T1 T2]. cbv zeta in P0, P1, P2, T1, T2.
  unfold unpolarize, n_pol in *. rewrite Ve in *. cbn [csum]. rewrite !P0, !P1, !P2, ?D0, ?D1, ?D2, ?R0, ?R1, ?R2, ?RtoC_opp, ?RtoC_mult.
  set (r := w 0%nat * RtoC U0 + w 1%nat * RtoC U1) in *.
  match goal with |- _ - ?x * RtoC (direction o j _) - _ + _ = _ => assert (x = 0) as -> by (etransitivity; [|exact T1]; ring) end.
  match goal with |- _ - ?x * _ + _ * _ = _ => assert (x = r) as -> by (etransitivity; [|exact T2]; ring) end.
  destruct p as [|[|]]; [| |lia]; rewrite ?P1, ?P2, ?D1, ?D2, ?R1, ?R2, ?M0, ?M1, ?RtoC_mult; ring.
Qed.
Lemma polarize_transverse o j w : vectorial o = true -> valid o -> (j < n_modes o)%nat -> csum 3 (fun c => RtoC (direction o j c) * polarize o j w c) = 0.
Proof.
  intros Ve V J. destruct (polarized o j w Ve V J) as (A & S & U0 & U1 & HA & HU & _ & _ & (D0 & D1 & D2) & P0 & P1 & P2).
  destruct (lift_rotation A S U0 U1 HA HU) as [HA' HU']. destruct (rotation (RtoC A) (RtoC S) (RtoC U0) (RtoC U1) (w 0%nat) (w 1%nat) HA' HU') as [T1 _]. cbv zeta in P0, P1, P2, T1.
  cbn [csum]. rewrite P0, P1, P2, D0, D1, D2, !RtoC_mult. etransitivity; [|exact T1]. ring.
Qed.
Lemma polarize_norm o j w : vectorial o = true -> valid o -> (j < n_modes o)%nat -> csum 3 (fun c => Cconj (polarize o j w c) * polarize o j w c) = csum 2 (fun p => Cconj (w p) * w p).
Proof.
  intros Ve V J. destruct (polarized o j w Ve V J) as (A & S & U0 & U1 & HA & HU & _ & _ & _ & P0 & P1 & P2).
  destruct (lift_rotation A S U0 U1 HA HU) as [HA' HU']. cbv zeta in P0, P1, P2.
  cbn [csum]. rewrite P0, P1, P2. rewrite ?Cconj_plus, ?Cconj_minus, ?Cconj_mult, ?Cconj_plus, ?Cconj_mult, ?Cconj_opp, ?Cconj_R.
  set (a := w 0%nat). set (b := w 1%nat). set (a' := Cconj a). set (b' := Cconj b).
  destruct HU' as [HU'|(-> & -> & ->)]; [|ring].
  transitivity (0 + a' * a + b' * b + (RtoC A * RtoC A + RtoC S * RtoC S - 1) * ((a * RtoC U0 + b * RtoC U1) * (a' * RtoC U0 + b' * RtoC U1))
     + (RtoC A - 1) * (RtoC A - 1) * ((a * RtoC U0 + b * RtoC U1) * (a' * RtoC U0 + b' * RtoC U1)) * (RtoC U0 * RtoC U0 + RtoC U1 * RtoC U1 - 1)); [ring|rewrite HU', HA'; ring].
Qed.
