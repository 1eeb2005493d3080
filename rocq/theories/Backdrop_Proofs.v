(** Proofs about the background of a beam: C198. *)
From Coq Require Import Reals List Arith Bool ZArith Lia Lra Psatz FunctionalExtensionality.
Require Import Verif.Base Verif.CSum Verif.Field Verif.Fourier_Model Verif.Fourier_Spec Verif.Fourier_Proofs Verif.Vec_Model Verif.Vec_Spec Verif.Vec_Proofs Verif.Modes_Model Verif.Modes_Proofs.
Require Import Verif.Solver_Convergence Verif.Magnetic_Norm Verif.Robust_Spec Verif.Robust_Proofs.
Require Import Verif.Beam_Model Verif.Beam_Spec Verif.Beam_Proofs Verif.Beam_Media Verif.Beam_Slices Verif.Beam_More Verif.Beam_Vector Verif.Beam_Power Verif.Nearby_Spec Verif.Nearby_Proofs Verif.Neglect_Spec Verif.Neglect_Proofs Verif.Detour_Spec Verif.Detour_Proofs Verif.Divide_Spec Verif.Divide_Proofs Verif.Bounds_Proofs Verif.Backdrop_Spec Verif.Cplx.
Import ListNotations.
Local Open Scope R_scope.
Local Open Scope C_scope.

Section Backdrop.
  Variables (g : raster) (fi : nat -> R) (axis : nat) (k0 : R).
  Hypotheses (G : section_grid g axis) (K0 : (0 < k0)%R).
  Notation back := (with_background g fi axis k0).
  Notation sh := (rshape g).
  Notation sz := (size 1 sh).

  (** How much less than axially the wave advances. *)
  Definition lag (k : R) (q : list nat) : R := (axial g axis k q - k)%R.
  Lemma lag_bound k q : (0 < k)%R -> (- (kt2 g axis q / k) <= lag k q <= 0)%R.
  Proof.
    intros K. set (b := with_background g fi axis k 1). pose proof (axial_le b k K q) as A. cbn in A. pose proof (axial_nonneg b k q) as A0. cbn in A0. pose proof (axial_sq b k q) as S. cbn in S. pose proof (kt2_nonneg b q) as T. cbn in T. unfold lag. split; [|lra].
    assert (k * k - kt2 g axis q <= axial g axis k q * axial g axis k q)%R as M by (rewrite S; apply Rmax_r). set (a := axial g axis k q) in *. set (t := kt2 g axis q) in *.
    apply Rmult_le_reg_l with (1 := K). replace (k * - (t / k))%R with (- t)%R by (field; lra). nra.
  Qed.
  Lemma lag_close n n' T q : (0 < n)%R -> (0 < n')%R -> (kt2 g axis q <= T)%R -> (Rabs (lag (k0 * n) q - lag (k0 * n') q) <= T / (k0 * Rmin n n'))%R.
  Proof.
    intros P P' HT. assert (0 < k0 * n)%R as Q by nra. assert (0 < k0 * n')%R as Q' by nra. pose proof (lag_bound _ q Q) as [L1 L2]. pose proof (lag_bound _ q Q') as [L1' L2'].
    set (m := Rmin n n'). assert (0 < m)%R as M by (apply Rmin_pos; assumption). assert (m <= n)%R as M1 by apply Rmin_l. assert (m <= n')%R as M2 by apply Rmin_r. pose proof (kt2_nonneg (back 1) q) as T0. cbn in T0.
    assert (forall x, (m <= x)%R -> (kt2 g axis q / (k0 * x) <= T / (k0 * m))%R) as B.
    { intros x Hx. unfold Rdiv. apply Rmult_le_compat; [exact T0|left; apply Rinv_0_lt_compat; nra|exact HT|apply Rinv_le_contravar; nra]. }
    pose proof (B n M1). pose proof (B n' M2). apply Rabs_le. lra.
  Qed.
  Lemma given_passive n0 x : (0 < n0)%R -> given_slice g x -> passive_slice (back n0) x.
  Proof.
    intros N (D & n & E & A). split; [exact D|]. rewrite E. intros p Hp. specialize (A p Hp). cbn [with_background bn]. destruct (n p) as [x1 x2]. cbn in *. replace (x1 * (- 0 / (n0 * (n0 * 1) + 0 * (0 * 1))) + x2 * (n0 / (n0 * (n0 * 1) + 0 * (0 * 1))))%R with (x2 / n0)%R by (field; lra). apply Rmult_le_pos; [exact A|left; apply Rinv_0_lt_compat, N].
  Qed.
  Definition retard (d : R) (n : sfield) (p : list nat) : C := cexp (Ci * RtoC k0 * n p * RtoC d).
  Lemma exact_back n0 d n F q : (0 < n0)%R -> inside sh q -> exact_slice (back n0) (k0 * n0) (d, Some n) F 0%nat q = transmit g fi (retard d n) (F 0%nat) q * cis (d * lag (k0 * n0) q).
  Proof.
    intros N Hq. unfold exact_slice. cbn [with_background bcomp Nat.eqb fst snd bgrid bfirst baxis bn through]. unfold split_step, diffract. replace (d * lag (k0 * n0) q)%R with (- (k0 * n0 * d) + d * axial g axis (k0 * n0) q)%R by (unfold lag; ring). rewrite cis_plus, Cmult_assoc. f_equal.
    rewrite Cmult_comm. unfold transmit. rewrite <- (to_spectrum_scal (back n0)). apply (to_spectrum_ext (back n0)). intros p _. unfold transmittance, retard.
    assert (RtoC n0 <> 0) as NZ by (intros Z; apply RtoC_inj in Z; lra).
    change (RtoC (exp (fst (Ci * RtoC (k0 * n0) * (n p / RtoC n0 - 1) * RtoC d))) * cis (snd (Ci * RtoC (k0 * n0) * (n p / RtoC n0 - 1) * RtoC d))) with (cexp (Ci * RtoC (k0 * n0) * (n p / RtoC n0 - 1) * RtoC d)).
    replace (Ci * RtoC (k0 * n0) * (n p / RtoC n0 - 1) * RtoC d) with ((0, - (k0 * n0 * d))%R + Ci * RtoC k0 * n p * RtoC d).
    - rewrite cexp_plus. replace (cexp (0, (- (k0 * n0 * d))%R)) with (cis (- (k0 * n0 * d))) by (unfold cexp; cbn [fst snd]; rewrite exp_0; ring). ring.
    - replace ((0, (- (k0 * n0 * d))%R) : C) with (- (Ci * RtoC (k0 * n0 * d))) by (unfold Ci, RtoC, Cmult, Copp; cbn; f_equal; ring). rewrite !RtoC_mult. field. exact NZ.
  Qed.
  Lemma retard_le d (n : sfield) p : (0 <= d)%R -> (0 <= snd (n p))%R -> (Cmod (retard d n p) <= 1)%R.
  Proof.
    intros D A. unfold retard, cexp. rewrite Cmod_mult, cis_mod, Rmult_1_r, Cmod_R, Rabs_pos_eq by (left; apply exp_pos). rewrite <- exp_0. assert (fst (Ci * RtoC k0 * n p * RtoC d)%C <= 0)%R as [L|L]; [|left; apply exp_increasing, L|right; rewrite L; reflexivity].
    destruct (n p) as [x y]. cbn in *. assert (0 <= k0 * y * d)%R by (apply Rmult_le_pos; nra). lra.
  Qed.
  Lemma one_back n n' T x F : (0 < n)%R -> (0 < n')%R -> given_slice g x -> (forall q, inside sh q -> (kt2 g axis q <= T)%R) ->
    (gap (back n) (exact_slice (back n) (k0 * n) x F) (exact_slice (back n') (k0 * n') x F) <= fst x * (T / (k0 * Rmin n n')) * sz F)%R.
  Proof.
    intros P P' (D & m & E & A) HT. destruct x as [d o]. cbn [fst snd] in *. subst o. set (e := (T / (k0 * Rmin n n'))%R).
    assert (0 <= e)%R as E0. { pose proof (lag_close n n' T origin P P' (HT origin (shape_inside (back n) G))) as Q. fold e in Q. pose proof (Rabs_pos (lag (k0 * n) origin - lag (k0 * n') origin)). lra. }
    set (H := fun (c : nat) => transmit g fi (retard d m) (F c)).
    apply Rle_trans with (d * e * sz H)%R.
    - unfold gap. apply vnorm_le; [nra|]. unfold vnorm2. cbn [with_background bcomp bshape bgrid rsum]. rewrite !Rplus_0_l. unfold norm2. rewrite <- rsum_over_scal. apply rsum_over_le. intros q Hq.
      rewrite !exact_back by assumption. fold (H 0%nat). replace (H 0%nat q * cis (d * lag (k0 * n) q) - H 0%nat q * cis (d * lag (k0 * n') q)) with (H 0%nat q * cis (d * lag (k0 * n') q) * (cis (d * (lag (k0 * n) q - lag (k0 * n') q)) - 1)).
      + rewrite !Cmod_mult, cis_mod. pose proof (cis_close (d * (lag (k0 * n) q - lag (k0 * n') q))) as Q. rewrite Rabs_mult, (Rabs_pos_eq d) in Q by lra. pose proof (lag_close n n' T q P P' (HT q Hq)) as Lg. fold e in Lg.
        assert (Cmod (cis (d * (lag (k0 * n) q - lag (k0 * n') q)) - 1)%C <= d * e)%R as B by (eapply Rle_trans; [exact Q|]; apply Rmult_le_compat_l; lra). pose proof (Cmod_ge_0 (cis (d * (lag (k0 * n) q - lag (k0 * n') q)) - 1)) as B0. set (u := Cmod (cis _ - 1)) in *. set (v := Cmod (H 0%nat q)) in *.
        replace (v * 1 * u * (v * 1 * u))%R with (u * u * (v * v))%R by ring. apply Rmult_le_compat_r; [nra|]. apply Rmult_le_compat; assumption.
      + replace (d * lag (k0 * n) q)%R with (d * lag (k0 * n') q + d * (lag (k0 * n) q - lag (k0 * n') q))%R by ring. rewrite cis_plus. ring.
    - apply Rmult_le_compat_l; [nra|]. rewrite <- (Rmult_1_l (sz F)). apply (raw_bound (back n) G); [lra|]. intros p Hp. apply retard_le; [lra|apply A, Hp].
  Qed.
  Lemma back_size n x F : (0 < n)%R -> given_slice g x -> (sz (exact_slice (back n) (k0 * n) x F) <= sz F)%R.
  Proof.
    intros P A. assert (bcomp (back n) = 3%nat -> transverse g axis (k0 * n) F) as T by discriminate. apply (exact_size (back n) (k0 * n)); [exact G|nra|reflexivity|left; reflexivity| |apply given_passive; assumption|exact T]. cbn. intros Z. apply RtoC_inj in Z. lra.
  Qed.
  Lemma slices_back n n' T l : (0 < n)%R -> (0 < n')%R -> Forall (given_slice g) l -> (forall q, inside sh q -> (kt2 g axis q <= T)%R) -> forall F H,
    (gap (back n) (exact_slices (back n) (k0 * n) l F) (exact_slices (back n') (k0 * n') l H) <= gap (back n) F H + total_thickness l * (T / (k0 * Rmin n n')) * sz F)%R.
  Proof.
    intros P P' A HT. set (e := (T / (k0 * Rmin n n'))%R).
    assert (0 <= e)%R as E0. { pose proof (lag_close n n' T origin P P' (HT origin (shape_inside (back n) G))) as Q. fold e in Q. pose proof (Rabs_pos (lag (k0 * n) origin - lag (k0 * n') origin)). lra. }
    induction A as [|x l Ax A IH]; intros F H.
    - unfold exact_slices. cbn [fold_left total_thickness fold_right]. lra.
    - change (exact_slices (back n) (k0 * n) (x :: l) F) with (exact_slices (back n) (k0 * n) l (exact_slice (back n) (k0 * n) x F)). change (exact_slices (back n') (k0 * n') (x :: l) H) with (exact_slices (back n') (k0 * n') l (exact_slice (back n') (k0 * n') x H)).
      eapply Rle_trans; [apply IH|]. cbn [total_thickness fold_right]. fold (total_thickness l).
      pose proof (one_back n n' T x F P P' Ax HT) as L. fold e in L. pose proof (gap_triangle (back n) (exact_slice (back n) (k0 * n) x F) (exact_slice (back n') (k0 * n') x F) (exact_slice (back n') (k0 * n') x H)) as Tr.
      assert (gap (back n) (exact_slice (back n') (k0 * n') x F) (exact_slice (back n') (k0 * n') x H) <= gap (back n) F H)%R as Nr.
      { apply (exact_near (back n') (k0 * n')); [exact G|nra|reflexivity|left; reflexivity|]. apply given_passive; assumption. }
      pose proof (back_size n x F P Ax) as S. assert (0 <= total_thickness l)%R as Tl by (clear -A; induction A as [|y l (D & _) A IH]; cbn; [lra|]; unfold total_thickness in IH; lra).
      assert (total_thickness l * e * sz (exact_slice (back n) (k0 * n) x F) <= total_thickness l * e * sz F)%R by (apply Rmult_le_compat_l; [nra|exact S]).
      replace ((fst x + total_thickness l) * e * sz F)%R with (fst x * e * sz F + total_thickness l * e * sz F)%R by ring. lra.
  Qed.
  Lemma beam_back n n' T l F s s' : (0 < n)%R -> (0 < n')%R -> Forall (given_slice g) l -> (forall q, inside sh q -> (kt2 g axis q <= T)%R) ->
    (gap (back n) (read_ft (back n) (run (back n) s (SetFt F :: there l))) (read_ft (back n') (run (back n') s' (SetFt F :: there l))) <=
     total_thickness l * (T / (k0 * Rmin n n')) * sz F + slack (back n) (k0 * n) l F + slack (back n') (k0 * n') l F)%R.
  Proof.
    intros P P' A HT.
    assert (forall n, (0 < n)%R -> forall s, (gap (back n) (read_ft (back n) (run (back n) s (SetFt F :: there l))) (exact_slices (back n) (k0 * n) l (exact_start (back n) (k0 * n) F)) <= slack (back n) (k0 * n) l F)%R) as E.
    { intros m Pm s0. apply (beam_error (back m) (k0 * m)); [exact G|nra|reflexivity|left; reflexivity| |]. { cbn. intros Z. apply RtoC_inj in Z. lra. } eapply Forall_impl; [|exact A]. intros x Hx. apply given_passive; assumption. }
    pose proof (E n P s) as E1. pose proof (E n' P' s') as E2. change (exact_start (back n) (k0 * n) F) with F in E1. change (exact_start (back n') (k0 * n') F) with F in E2. change (gap (back n')) with (gap (back n)) in E2.
    pose proof (slices_back n n' T l P P' A HT F F) as D. assert (gap (back n) F F = 0)%R as Z by (unfold gap; rewrite (size_same _ _ _ (fun _ _ => RtoC 0)) by (intros; f_equal; ring); apply zero_size).
    set (X := read_ft (back n) (run (back n) s (SetFt F :: there l))) in *. set (Y := read_ft (back n') (run (back n') s' (SetFt F :: there l))) in *. set (A1 := exact_slices (back n) (k0 * n) l F) in *. set (A2 := exact_slices (back n') (k0 * n') l F) in *.
    pose proof (gap_triangle (back n) X A1 Y) as T1. pose proof (gap_triangle (back n) A1 A2 Y) as T2. rewrite (gap_sym (back n) A2 Y) in T2. lra.
  Qed.
End Backdrop.
