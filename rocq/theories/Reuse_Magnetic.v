(** Using a Solution again in magnetic and chiral media. *)
From Coq Require Import Reals Lra Lia List Arith ZArith Bool.
Require Import Verif.Base Verif.Num Verif.Grid_Model Verif.Grid_Spec Verif.Grid_Proofs Verif.Bound_Model Verif.Setup_Model Verif.Entry_Model Verif.Entry_Spec Verif.Entry_Proofs.
Require Import Verif.Array_Glue.
Require Import Verif.Cplx Verif.CSum Verif.Field Verif.Fourier_Model Verif.Fourier_Spec Verif.Fourier_Proofs Verif.Display_Model.
Require Import Verif.Vec_Model Verif.Vec_Spec Verif.Vec_Proofs Verif.Vec_Grid Verif.Solver_Model Verif.Solver_Spec Verif.Solver_Proofs.
Require Import Verif.Solver_Convergence Verif.Solver_Limit Verif.Solver_Choice Verif.Choice_Model Verif.Choice_Proofs.
Require Import Verif.Derived_Model Verif.Derived_Spec Verif.Derived_Tensor Verif.Solver_Maxwell Verif.Derived_Proofs Verif.Solver_Bounded.
Require Import Verif.Array_Model Verif.Array_Spec Verif.Material_Model Verif.Material_Spec.
Require Import Verif.Run_Model Verif.Run_Spec Verif.Run_Proofs Verif.Run_Solve Verif.Run_Zero Verif.Run_Converge Verif.Run_Glue.
Require Import Verif.Operator_Convergence Verif.Magnetic_Norm Verif.Magnetic_Spec Verif.Magnetic_Choice Verif.Magnetic_Proofs Verif.Magnetic_Run.
Require Import Verif.Whole_Model Verif.Whole_Spec Verif.Whole_Proofs Verif.Whole_Results Verif.Whole_Magnetic Verif.Warm_Model Verif.Warm_Proofs Verif.Warm_Magnetic Verif.Reuse_Proofs.
Import ListNotations.
Local Open Scope R_scope.
Local Open Scope C_scope.

(** The current density of a source. *)
Definition current (u : si) (k0 : R) (S : vfield) : vfield := fun c p => S c p / (Ci * RtoC (k0 * c_light u) * RtoC (mu_0 u)).
Lemma current_nonzero u k0 : physical u -> (0 < k0)%R -> Ci * RtoC (k0 * c_light u) * RtoC (mu_0 u) <> 0.
Proof.
  intros (Hcl & Hmu & _) Hk. assert (0 < k0 * c_light u)%R by (apply Rmult_lt_0_compat; assumption). assert (0 < k0 * c_light u * mu_0 u)%R by (apply Rmult_lt_0_compat; assumption).
  intros E. apply (f_equal snd) in E. cbn in E. lra.
Qed.
Lemma driving_current u k0 S : physical u -> (0 < k0)%R -> driving u k0 (current u k0 S) = S.
Proof.
  intros Hu Hk. apply vfield_ext. intros c p. unfold driving, current. pose proof (current_nonzero u k0 Hu Hk) as Hne. revert Hne.
  generalize (Ci * RtoC (k0 * c_light u) * RtoC (mu_0 u)). intros d Hd. field. exact Hd.
Qed.
Lemma current_driving u k0 S J : physical u -> (0 < k0)%R -> (forall c p, S c p = driving u k0 J c p) -> current u k0 S = J.
Proof.
  intros Hu Hk E. apply vfield_ext. intros c p. unfold current. rewrite E. unfold driving. pose proof (current_nonzero u k0 Hu Hk) as Hne. revert Hne.
  generalize (Ci * RtoC (k0 * c_light u) * RtoC (mu_0 u)). intros d Hd. field. exact Hd.
Qed.

Section MagneticMedium.
  Variables (eps : R) (u : si) (g : raster) (k0 : R) (epsilon xi zeta mu nu : tensor) (settled : R * R) (thick : option R) (kappa : C) (loss : R).
  Hypothesis He : (0 < eps)%R.
  Hypothesis He1 : (2 * eps <= 1)%R.
  Hypothesis Hu : physical u.
  Hypothesis Hs : solvable true g k0.
  Hypothesis Hk : (0 < k0)%R.
  Hypothesis Hnu : inverse_of (rshape g) mu nu.
  Hypothesis Hm : is_magnetic (rshape g) xi zeta mu = true.
  Hypothesis Hprec : (20 * sqrt (2 * sqrt eps) * ((1 + highest_frequency g k0) * (1 + highest_frequency g k0)) < snd settled * snd settled)%R.
  Hypothesis Hcouple : forall G, vagree 3 (rshape g) (coupling xi zeta nu G) (fun c p => kappa * G c p).
  Hypothesis Hloss : dissipates (rshape g) epsilon xi zeta mu loss.
  Hypothesis Hloss0 : (0 <= loss)%R.
  Let os (S : vfield) := Choice_Model.construct eps g k0 true epsilon xi zeta mu settled thick S.
  Let problem (E H S : vfield) := maxwell u g k0 epsilon xi zeta mu E H (current u k0 S).
  Let dc S : driving u k0 (current u k0 S) = S := driving_current u k0 S Hu Hk.

  Lemma ma_alpha S S' : o_alpha (os S) = o_alpha (os S').
  Proof. unfold os, Choice_Model.construct. destruct (choose _ _ _ _ _ _ _ _ _ _). reflexivity. Qed.
  Lemma ma_H S S' F : magnetizing_field u (os S) k0 F = magnetizing_field u (os S') k0 F.
  Proof. unfold os, Choice_Model.construct. destruct (choose _ _ _ _ _ _ _ _ _ _). reflexivity. Qed.
  Lemma ma_prepare S : os S = prepare (scaled k0 g) true true (o_alpha (os none)) (snd settled * snd settled) epsilon xi zeta mu S.
  Proof.
    pose proof (mp_prepare eps u g k0 epsilon xi zeta mu settled thick (current u k0 S) Hm) as P. rewrite (dc S) in P. fold (os S) in P. rewrite (ma_alpha S none) in P. exact P.
  Qed.
  Lemma ma_source S S' : with_source (os S) S' = os S'.
  Proof.
    rewrite (ma_prepare S), (ma_prepare S'). apply with_source_prepare.
    - pose proof (mp_ai eps u g k0 epsilon xi zeta mu settled thick (current u k0 none) He He1 Hs Hk Hm Hprec) as P. rewrite (dc none) in P. fold (os none) in P. lra.
    - pose proof (mp_beta eps g k0 settled He He1 Hs Hk Hprec). lra.
  Qed.
  Lemma ma_shrinks (S : vfield) F : (exists E H, problem E H S) -> norm (os S) (update (os S) F) <> 0%R ->
    (norm (os S) (update (os S) (next_field (os S) F)) < norm (os S) (update (os S) F))%R.
  Proof.
    pose proof (wr_shrinks eps u g k0 epsilon xi zeta mu nu settled thick (current u k0 S) kappa loss He He1 Hu Hs Hk Hnu Hm Hprec Hcouple Hloss Hloss0 F) as P. rewrite (dc S) in P. exact P.
  Qed.
  Lemma ma_shape S : rshape (o_grid (os S)) = rshape g /\ vector_length (os S) = 3%nat.
  Proof. rewrite (ma_prepare S). split; reflexivity. Qed.
  Lemma ma_fixed S F : vagree 3 (rshape g) (update (os S) F) none <-> problem (electric_field k0 F) (magnetizing_field u (os S) k0 F) S.
  Proof.
    pose proof (mp_fixed eps u g k0 epsilon xi zeta mu nu settled thick (current u k0 S) kappa He He1 Hu Hs Hk Hnu Hm Hprec Hcouple F) as P. rewrite (dc S) in P. exact P.
  Qed.
  Lemma ma_next_vagree S F G : vagree 3 (rshape g) F G -> vagree 3 (rshape g) (next_field (os S) F) (next_field (os S) G).
  Proof.
    pose proof (Operator_Convergence.next_vagree (os S)) as P. destruct (ma_shape S) as (E1 & E2). rewrite E1, E2 in P.
    pose proof (mp_fine eps u g k0 epsilon xi zeta mu settled thick (current u k0 S) He He1 Hs Hk Hm Hprec) as P1.
    pose proof (mp_ai eps u g k0 epsilon xi zeta mu settled thick (current u k0 S) He He1 Hs Hk Hm Hprec) as P2.
    pose proof (mp_chi eps u g k0 epsilon xi zeta mu nu settled thick (current u k0 S) He He1 Hs Hk Hnu Hm Hprec) as P3.
    rewrite (dc S) in P1, P2, P3. fold (os S) in P1, P2, P3.
    apply (P _ P1 P2 (mc_vagree g k0 (snd settled * snd settled) epsilon xi zeta nu Hs) P3).
  Qed.
  Lemma ma_moves (S : vfield) c p : (c < 3)%nat -> CSum.inside (rshape g) p -> S c p <> 0 -> vnorm2 3 (rshape g) (update (os S) none) <> 0%R.
  Proof.
    intros Hc Hp HS. pose proof (wr_moves eps u g k0 epsilon xi zeta mu nu settled thick (current u k0 S) kappa He He1 Hu Hs Hk Hnu Hm Hprec Hcouple c p Hc Hp) as P.
    rewrite (dc S) in P. fold (os S) in P. destruct (ma_shape S) as (E1 & E2). rewrite E1, E2 in P. apply P. intros Z. apply HS. rewrite <- (dc S). unfold driving. rewrite Z. ring.
  Qed.
  Lemma ma_exists S : (0 < loss)%R -> exists E H, problem E H S /\ forall E' H', problem E' H' S -> vagree 3 (rshape g) E' E /\ vagree 3 (rshape g) H' H.
  Proof.
    intros Hl. destruct (wr_error_limit eps u g k0 epsilon xi zeta mu nu settled thick (current u k0 S) kappa loss He He1 Hu Hs Hk Hnu Hm Hprec Hcouple Hloss Hloss0 Hl) as (E & H & _ & HM & HU & _).
    exists E, H. split; [exact HM|exact HU].
  Qed.
  (** The constants do not depend on the source. *)
  Lemma ma_error : (0 < loss)%R -> exists K, forall (S : vfield) start (E H : vfield) rtol x, problem E H S -> (0 < rtol)%R -> ended (os S) start k0 None rtol x ->
    (magnitude x (fun c p => get_E x c p - E c p)%C <= K * rtol * magnitude x (get_E x))%R /\
    (magnitude x (fun c p => magnetizing_field u (operators x) (wavenumber x) (field x) c p - H c p)%C <= K * rtol * magnitude x (get_E x))%R.
  Proof.
    intros Hl. destruct (mr_H_bounded eps u g k0 epsilon xi zeta mu nu settled thick (current u k0 none) He He1 Hu Hs Hk Hnu Hm Hprec) as (KH & HKH & HH).
    rewrite (dc none) in HH. fold (os none) in HH.
    pose proof (wr_tolerance eps u g k0 epsilon xi zeta mu settled thick (current u k0 none) loss He He1 Hs Hk Hm Hprec Hl) as Htol.
    rewrite (dc none) in Htol. fold (os none) in Htol. match type of Htol with (0 < ?k)%R => exists (4 / k + KH * (4 / k))%R; set (kk := k) in * end.
    intros S start E H rtol x HM Ht Hx.
    pose proof (wr_errors eps u g k0 epsilon xi zeta mu nu settled thick (current u k0 S) kappa loss He He1 Hu Hs Hk Hnu Hm Hprec Hcouple Hloss KH start E H rtol x Hl HKH) as D.
    rewrite (dc S) in D. fold (os S) in D. cbv zeta in D. rewrite (ma_alpha S none) in D. fold kk in D.
    destruct (D ltac:(intros F G; rewrite !(ma_H S none); apply HH) HM Ht Hx) as (D1 & D2).
    assert (0 <= magnitude x (get_E x))%R as Hmx by (rewrite magnitude_norm; apply norm_nonneg). assert (0 < 4 / kk)%R as Hp4 by (apply Rdiv_lt_0_compat; lra).
    set (mm := magnitude x (get_E x)) in *. clearbody mm kk.
    assert (0 <= 4 / kk * rtol * mm)%R by (apply Rmult_le_pos; [apply Rmult_le_pos|]; lra). assert (0 <= KH * (4 / kk * rtol * mm))%R by (apply Rmult_le_pos; lra).
    split; (eapply Rle_trans; [eassumption|]); lra.
  Qed.
  Lemma ma_finishes {W} (S : vfield) x0 (E H : vfield) maxiter rtol (w : W) c p : wavenumber x0 = k0 -> operators x0 = os S -> prev_norm x0 = Inf -> problem E H S ->
    (c < 3)%nat -> CSum.inside (rshape g) p -> S c p <> 0 -> (0 < rtol)%R ->
    exists fuel, (exists x, loop fuel (limits maxiter rtol) true w x0 = Some (Returned w x) /\ ended (os S) (field x0) k0 maxiter rtol x) \/
      (exists x, loop fuel (limits maxiter rtol) true w x0 = Some (Raised w x ZeroDivisionError) /\ vagree 3 (rshape g) (get_E x) none).
  Proof.
    intros Ew Eo Ep HM Hc Hp HS Ht.
    pose proof (wr_finishes eps u g k0 epsilon xi zeta mu nu settled thick (current u k0 S) kappa loss He He1 Hu Hs Hk Hnu Hm Hprec Hcouple Hloss Hloss0 x0 Ew) as P.
    rewrite (dc S) in P. fold (os S) in P. destruct (ma_shape S) as (E1 & E2). rewrite E1, E2 in P.
    destruct (P Eo Ep W E H maxiter rtol w HM (ma_moves S c p Hc Hp HS) Ht) as (fuel & [(x & EL & En)|(x & EL & i & (Xw & Xo & Xf & _) & Hz & _)]); exists fuel; [left|right]; exists x; split; try assumption.
    rewrite E1, E2 in Hz. apply vnorm2_zero in Hz. intros c' p' Hc' Hp'. unfold get_E, electric_field. rewrite Xf, (Hz c' p' Hc' Hp'). unfold none, Cdiv. ring.
  Qed.
  Lemma ma_never : (0 < loss)%R -> exists tol, (0 < tol)%R /\ forall {W} (S : vfield) x0 rtol fuel (w w' : W) x' c p, wavenumber x0 = k0 -> operators x0 = os S -> prev_norm x0 = Inf ->
    vagree 3 (rshape g) S none -> (c < 3)%nat -> CSum.inside (rshape g) p -> field x0 c p <> 0 -> (0 < rtol < tol)%R ->
    loop fuel (limits None rtol) true w x0 <> Some (Returned w' x').
  Proof.
    intros Hl. pose proof (wr_tolerance eps u g k0 epsilon xi zeta mu settled thick (current u k0 none) loss He He1 Hs Hk Hm Hprec Hl) as Htol.
    rewrite (dc none) in Htol. fold (os none) in Htol. match type of Htol with (0 < ?k)%R => exists (k / 4)%R end. split; [lra|].
    intros W S x0 rtol fuel w w' x' c p Ew Eo Ep H0 Hc Hp HF Hrt.
    pose proof (wr_never eps u g k0 epsilon xi zeta mu nu settled thick (current u k0 S) kappa loss He He1 Hs Hk Hnu Hm Hprec Hcouple Hloss Hloss0 x0 Ew) as P.
    rewrite (dc S) in P. fold (os S) in P. rewrite (ma_alpha S none) in P. apply (P Eo Ep W rtol Hl); [|exact Hrt|].
    - destruct (ma_shape S) as (E1 & E2). rewrite E1, E2.
      assert (problem none (faraday_H u g k0 zeta nu none) S) as HM0.
      { apply (maxwell_second_order u g k0 epsilon xi zeta mu nu Hu Hs Hnu). split; [intros ? ? _ _; reflexivity|]. intros c' p' Hc' Hp'. rewrite second_order_none. rewrite (dc S), (H0 c' p' Hc' Hp'). reflexivity. }
      pose proof (wr_still eps u g k0 epsilon xi zeta mu nu settled thick (current u k0 S) kappa He He1 Hu Hs Hk Hnu Hm Hprec Hcouple _ _ HM0) as HZ.
      rewrite (dc S) in HZ. fold (os S) in HZ. rewrite E1, E2 in HZ. rewrite (none_is (fun c p => RtoC (k0 * k0) * none c p)) in HZ by (intros; unfold none; ring). exact HZ.
    - intros Z. apply HF. apply norm_zero_agree in Z. destruct (ma_shape S) as (E1 & E2). rewrite E1, E2 in Z. exact (Z c p Hc Hp).
  Qed.
End MagneticMedium.

Section Results.
  Variables (W : Type) (u : si) (eps : R) (settled : R * R) (thick : option R) (q : request) (g : grid RN) (crd : nat -> list R) (k0 : R)
    (src : vfield) (e x z m nu : tensor) (kappa : C) (chi : list nat -> C).
  Hypothesis He : (0 < eps)%R.
  Hypothesis H1 : (2 * eps <= 1)%R.
  Hypothesis Hu : physical u.
  Hypothesis Hgrid : q_grid q = AGrid g.
  Hypothesis Hg : Entry_Spec.spatial g.
  Hypothesis Hdim : (ndim RN g <= 3)%nat.
  Hypothesis Hcrd : forall i, (i < ndim RN g)%nat -> coordinates g i = Ok (crd i).
  Hypothesis Hxi : means_tensor g crd (q_xi q) x.
  Hypothesis Hzeta : means_tensor g crd (q_zeta q) z.
  Hypothesis Hk : asked_wavenumber u q k0.
  Hypothesis Hk0 : (0 < k0)%R.
  Hypothesis Hkind : asked_kind g q true.
  Hypothesis Hsrc : asked_source u g crd k0 q true src.
  Hypothesis Hmed : asked_materials g crd q e m.
  Hypothesis Hchi : asked_boundary g q chi.
  Hypothesis Hnu : inverse_of (points_of g) m nu.
  Hypothesis Hmag : is_magnetic (points_of g) x z m = true.
  Hypothesis Hprec : (20 * sqrt (2 * sqrt eps) * ((1 + highest_frequency (sampled g) k0) * (1 + highest_frequency (sampled g) k0)) < snd settled * snd settled)%R.
  Hypothesis Hcouple : forall G, vagree 3 (points_of g) (coupling x z nu G) (fun c p => kappa * G c p).
  Let problem := maxwell u (sampled g) k0 (plus_isotropic e chi) x z m.
  Let os (e0 x0 z0 m0 : tensor) (S : vfield) := Choice_Model.construct eps (sampled g) k0 true e0 x0 z0 m0 settled thick S.

  Lemma rm_parts : exists s0 e0 x0 z0 m0 S0, new_solution u eps settled thick q = Ok s0 /\ kept k0 (os e0 x0 z0 m0) S0 s0 /\
    solvable true (sampled g) k0 /\ inverse_of (points_of g) m0 nu /\ is_magnetic (points_of g) x0 z0 m0 = true /\
    (forall G, vagree 3 (points_of g) (coupling x0 z0 nu G) (fun c p => kappa * G c p)) /\
    (forall loss, dissipates (points_of g) (plus_isotropic e chi) x z m loss -> dissipates (points_of g) e0 x0 z0 m0 loss) /\
    (forall l, vagree 3 (points_of g) (last_source u k0 l S0) (last_source u k0 l src)) /\
    forall l E H J, (forall c p, last_source u k0 l src c p = driving u k0 J c p) ->
      maxwell u (sampled g) k0 e0 x0 z0 m0 E H (current u k0 (last_source u k0 l S0)) <-> problem E H J.
  Proof.
    destruct (magnetic_parts u eps settled thick q g crd k0 src (current u k0 src) e x z m chi Hu Hgrid Hg Hcrd Hxi Hzeta Hk Hk0 Hkind Hsrc
      ltac:(intros c p; rewrite (driving_current u k0 src Hu Hk0); reflexivity) Hmed Hchi) as (s & e0 & x0 & z0 & m0 & J0 & Es & Ew & Ef & Ep & Eo & Ae & Ax & Az & Am & AJ).
    assert (vagree 3 (points_of g) (driving u k0 J0) src) as AS.
    { intros c p Hc Hp. rewrite <- (driving_current u k0 src Hu Hk0). unfold driving. rewrite (AJ c p Hc Hp). reflexivity. }
    exists s, e0, x0, z0, m0, (driving u k0 J0).
    refine (conj Es (conj (conj Ew (conj Eo (or_introl Ep))) (conj (whole_solvable g true k0 Hg (fun _ => Hdim) (Rgt_not_eq _ _ Hk0)) (conj (inverse_agree _ _ _ Am nu Hnu) (conj _ (conj _ (conj _ (conj (fun l => last_source_agree u k0 3 _ l _ _ AS) _)))))))).
    - rewrite (magnetic_agree _ _ _ _ _ _ _ (points_positive g (proj1 Hg)) Ax Az Am); exact Hmag.
    - intros G c p Hc Hp. rewrite (coupling_agree _ _ _ _ _ Ax Az nu G c p Hc Hp). apply Hcouple; assumption.
    - intros loss Hd. exact (dissipates_agree _ _ _ _ _ _ _ _ _ Ae Ax Az Am loss Hd).
    - intros l E H J HJ. apply (maxwell_agree _ _ _ _ _ _ _ _ _ Ae Ax Az Am u (sampled g) k0 E H _ J eq_refl).
      rewrite <- (current_driving u k0 _ J Hu Hk0 HJ). intros c p Hc Hp. unfold current. rewrite (last_source_agree u k0 3 _ l _ _ AS c p Hc Hp). reflexivity.
  Qed.
  (** Families of operators that only differ in their sources. *)
  Definition same_family (loss : R) (e0 x0 z0 m0 : tensor) (S0 : vfield) : Prop :=
    solvable true (sampled g) k0 /\ inverse_of (points_of g) m0 nu /\ is_magnetic (points_of g) x0 z0 m0 = true /\
    (forall G, vagree 3 (points_of g) (coupling x0 z0 nu G) (fun c p => kappa * G c p)) /\ dissipates (points_of g) e0 x0 z0 m0 loss /\
    (forall l, vagree 3 (points_of g) (last_source u k0 l S0) (last_source u k0 l src)) /\
    (forall l E H J, (forall c p, last_source u k0 l src c p = driving u k0 J c p) -> maxwell u (sampled g) k0 e0 x0 z0 m0 E H (current u k0 (last_source u k0 l S0)) <-> problem E H J) /\
    (forall S S', with_source (os e0 x0 z0 m0 S) S' = os e0 x0 z0 m0 S') /\
    (forall S F, norm (os e0 x0 z0 m0 S) (update (os e0 x0 z0 m0 S) F) <> 0%R ->
      (norm (os e0 x0 z0 m0 S) (update (os e0 x0 z0 m0 S) (next_field (os e0 x0 z0 m0 S) F)) < norm (os e0 x0 z0 m0 S) (update (os e0 x0 z0 m0 S) F))%R).
  Lemma rm_family loss : (forall J, exists E H, problem E H J) -> (0 <= loss)%R -> dissipates (points_of g) (plus_isotropic e chi) x z m loss ->
    exists s0 e0 x0 z0 m0 S0, new_solution u eps settled thick q = Ok s0 /\ kept k0 (os e0 x0 z0 m0) S0 s0 /\ same_family loss e0 x0 z0 m0 S0.
  Proof.
    intros Hex Hl Hd. destruct rm_parts as (s0 & e0 & x0 & z0 & m0 & S0 & Es & HK & Hs & Hi & M0 & C0 & D0 & HA & HW).
    exists s0, e0, x0, z0, m0, S0. refine (conj Es (conj HK (conj Hs (conj Hi (conj M0 (conj C0 (conj (D0 loss Hd) (conj HA (conj HW (conj _ _)))))))))).
    - exact (ma_source eps u (sampled g) k0 e0 x0 z0 m0 settled thick He H1 Hu Hs Hk0 M0 Hprec).
    - intros S F. apply (ma_shrinks eps u (sampled g) k0 e0 x0 z0 m0 nu settled thick kappa loss He H1 Hu Hs Hk0 Hi M0 Hprec C0 (D0 loss Hd) Hl S F).
      destruct (Hex (current u k0 S)) as (E & H & HM). exists E, H. apply (HW [OSetSource S] E H (current u k0 S)); [|exact HM].
      intros c p. rewrite (driving_current u k0 S Hu Hk0). reflexivity.
  Qed.
  Lemma rm_solvable loss : (0 < loss)%R -> dissipates (points_of g) (plus_isotropic e chi) x z m loss ->
    forall J, exists E H, problem E H J /\ forall E' H', problem E' H' J -> vagree 3 (points_of g) E' E /\ vagree 3 (points_of g) H' H.
  Proof.
    intros Hl Hd J. destruct rm_parts as (s0 & e0 & x0 & z0 & m0 & S0 & Es & HK & Hs & Hi & M0 & C0 & D0 & HA & HW).
    pose proof (fun E H => HW [OSetSource (driving u k0 J)] E H J (fun c p => eq_refl)) as HW'.
    destruct (ma_exists eps u (sampled g) k0 e0 x0 z0 m0 nu settled thick kappa loss He H1 Hu Hs Hk0 Hi M0 Hprec C0 (D0 loss Hd) (Rlt_le _ _ Hl) (driving u k0 J) Hl) as (E & H & HM & HU).
    exists E, H. split; [apply HW', HM|]. intros E' H' HM'. apply HU, HW', HM'.
  Qed.
  Lemma rm_history : (forall J, exists E H, problem E H J) -> dissipates (points_of g) (plus_isotropic e chi) x z m 0 ->
    exists s0, new_solution u eps settled thick q = Ok s0 /\ forall l fresh J, List.Forall keeps_material l -> (forall c p, last_source u k0 l src c p = driving u k0 J c p) -> let s := history u l s0 in
      (previous_update_norm s = Fin 0 /\ snd (next fresh s) = Some ZeroDivisionError /\ get_E (fst (next fresh s)) = get_E s /\ problem (get_E s) (magnetizing_field u (operators s) (wavenumber s) (field s)) J) \/
      (snd (next fresh s) = None /\ change s (fst (next fresh s)) = attempt s /\ previous_update_norm (fst (next fresh s)) = Fin (attempt s)).
  Proof.
    intros Hex Hd. destruct (rm_family 0 Hex (Rle_refl 0) Hd) as (s0 & e0 & x0 & z0 & m0 & S0 & Es & HK & Hs & Hi & M0 & C0 & D0 & HA & HW & Hso & Hsh).
    exists s0. split; [exact Es|]. intros l fresh J Hl HJ s.
    pose proof (kept_history u k0 _ Hso Hsh l S0 s0 HK Hl) as HK'. fold s in HK'.
    destruct (kept_effect k0 _ Hsh _ s fresh (Rgt_not_eq _ _ Hk0) HK') as [(P1 & P2 & P3)|P]; [left|right; exact P]. refine (conj P1 (conj P2 (conj P3 _))).
    apply (HW l _ _ J HJ). set (S := last_source u k0 l S0) in *. destruct HK' as (Ew & Eo & [Ep|(F & Ef & Ep)]).
    { unfold previous_update_norm in P1. rewrite Ep in P1. discriminate. }
    assert (norm (os e0 x0 z0 m0 S) (update (os e0 x0 z0 m0 S) F) = 0)%R as HN.
    { apply (norm_public s 0) in P1; [|rewrite Ew; lra]. rewrite Ep in P1. injection P1 as ->. ring. }
    destruct (ma_shape eps u (sampled g) k0 e0 x0 z0 m0 settled thick Hu Hk0 M0 S) as (E1 & E2). fold (os e0 x0 z0 m0 S) in E1, E2. cbn [rshape sampled] in E1.
    apply norm_zero_agree in HN. rewrite E1, E2 in HN. unfold get_E. rewrite Ew, Eo, Ef.
    apply (ma_fixed eps u (sampled g) k0 e0 x0 z0 m0 nu settled thick kappa He H1 Hu Hs Hk0 Hi M0 Hprec C0 S).
    eapply vagree_trans; [|exact HN]. pose proof (de_update (os e0 x0 z0 m0 S)) as DU. rewrite E1, E2 in DU.
    apply (DU (ma_next_vagree eps u (sampled g) k0 e0 x0 z0 m0 nu settled thick He H1 Hu Hs Hk0 Hi M0 Hprec S)).
    intros c p Hcc Hp. unfold next_field. rewrite (HN c p Hcc Hp). ring.
  Qed.
  Lemma rm_ends : (forall J, exists E H, problem E H J) -> dissipates (points_of g) (plus_isotropic e chi) x z m 0 ->
    exists s0, new_solution u eps settled thick q = Ok s0 /\ forall l rtol maxiter (w : W), List.Forall keeps_material l -> let s := history u l s0 in let now := last_source u k0 l src in
      (exists c p, (c < 3)%nat /\ CSum.inside (points_of g) p /\ now c p <> 0) -> (0 < rtol)%R ->
      exists fuel s', (solve_method fuel s NoneGiven rtol maxiter w = Some (Returned w s') /\ limit_reached maxiter rtol s') \/
        (solve_method fuel s NoneGiven rtol maxiter w = Some (Raised w s' ZeroDivisionError) /\ (vagree 3 (points_of g) (get_E s') (fun _ _ => 0) \/ previous_update_norm s = Fin 0)).
  Proof.
    intros Hex Hd. destruct (rm_family 0 Hex (Rle_refl 0) Hd) as (s0 & e0 & x0 & z0 & m0 & S0 & Es & HK & Hs & Hi & M0 & C0 & D0 & HA & HW & Hso & Hsh).
    exists s0. split; [exact Es|]. intros l rtol maxiter w Hl s now (c & p & Hcn & Hp & HS) Ht.
    pose proof (kept_history u k0 _ Hso Hsh l S0 s0 HK Hl) as HK'. fold s in HK'.
    assert (prev_norm s = Fin 0 \/ prev_norm s <> Fin 0) as [Z|Z].
    { destruct (prev_norm s) as [y|]; [|right; discriminate]. destruct (Req_EM_T y 0) as [->|ne]; [left; reflexivity|right; congruence]. }
    { exists 1%nat. eexists. right. unfold solve_method. cbn [loop]. rewrite (next_raise s true Z). split; [reflexivity|]. right. unfold previous_update_norm. rewrite Z. f_equal. unfold Rdiv. ring. }
    pose proof HK' as (Ew & Eo & _). destruct (Hex (current u k0 now)) as (E & H & HM).
    apply (HW l E H (current u k0 now)) in HM; [|intros c' p'; rewrite (driving_current u k0 now Hu Hk0); reflexivity].
    destruct (ma_finishes eps u (sampled g) k0 e0 x0 z0 m0 nu settled thick kappa 0 He H1 Hu Hs Hk0 Hi M0 Hprec C0 D0 (Rle_refl 0) (last_source u k0 l S0) (set_prev_norm s Inf) E H maxiter rtol w c p Ew Eo eq_refl HM Hcn Hp ltac:(rewrite (HA l c p Hcn Hp); exact HS) Ht)
      as (fuel & [(y & EL & En)|(y & EL & Hz)]); exists fuel, y; [left|right]; unfold solve_method; cbn [chosen]; rewrite (kept_loop k0 _ Hsh _ s fuel _ true w HK' Z), EL; (split; [reflexivity|]).
    - apply (ended_limit _ _ _ _ _ _ En).
    - left. exact Hz.
  Qed.
  Lemma rm_accurate loss : (0 < loss)%R -> dissipates (points_of g) (plus_isotropic e chi) x z m loss ->
    exists s0 K, new_solution u eps settled thick q = Ok s0 /\ forall l J, List.Forall keeps_material l -> (forall c p, last_source u k0 l src c p = driving u k0 J c p) ->
      exists E H, problem E H J /\ (forall E' H', problem E' H' J -> vagree 3 (points_of g) E' E /\ vagree 3 (points_of g) H' H) /\
        forall rtol fuel (w w' : W) s', (0 < rtol)%R -> (exists c p, (c < 3)%nat /\ CSum.inside (points_of g) p /\ J c p <> 0) ->
          solve_method fuel (history u l s0) NoneGiven rtol None w = Some (Returned w' s') ->
          (magnitude s' (fun c p => get_E s' c p - E c p)%C <= K * rtol * magnitude s' (get_E s'))%R /\
          (magnitude s' (fun c p => magnetizing_field u (operators s') (wavenumber s') (field s') c p - H c p)%C <= K * rtol * magnitude s' (get_E s'))%R.
  Proof.
    intros Hl Hd. pose proof (rm_solvable loss Hl Hd) as HU.
    destruct (rm_family loss ltac:(intros J; destruct (HU J) as (E & H & HM & _); exists E, H; exact HM) (Rlt_le _ _ Hl) Hd) as (s0 & e0 & x0 & z0 & m0 & S0 & Es & HK & Hs & Hi & M0 & C0 & D0 & HA & HW & Hso & Hsh).
    destruct (ma_error eps u (sampled g) k0 e0 x0 z0 m0 nu settled thick kappa loss He H1 Hu Hs Hk0 Hi M0 Hprec C0 D0 Hl) as (K & HKe).
    exists s0, K. split; [exact Es|]. intros l J Hml HJ. destruct (HU J) as (E & H & HM & Hun). exists E, H. split; [exact HM|]. split; [exact Hun|].
    intros rtol fuel w w' y Ht (c & p & Hcn & Hp & HS) Er. set (s := history u l s0) in *.
    pose proof (kept_history u k0 _ Hso Hsh l S0 s0 HK Hml) as HK'. fold s in HK'. pose proof HK' as (Ew & Eo & _).
    assert (prev_norm s <> Fin 0) as Z. { intros Z. destruct fuel; [discriminate|]. unfold solve_method in Er. cbn [loop] in Er. rewrite (next_raise s true Z) in Er. discriminate. }
    unfold solve_method in Er. cbn [chosen] in Er. rewrite (kept_loop k0 _ Hsh _ s fuel _ true w HK' Z) in Er.
    pose proof (proj2 (HW l E H J HJ) HM) as HM0.
    assert (last_source u k0 l S0 c p <> 0) as HS0.
    { rewrite (HA l c p Hcn Hp). intros E0. apply HS. rewrite <- (current_driving u k0 _ J Hu Hk0 HJ). unfold current. rewrite E0. unfold Cdiv. ring. }
    destruct (ma_finishes eps u (sampled g) k0 e0 x0 z0 m0 nu settled thick kappa loss He H1 Hu Hs Hk0 Hi M0 Hprec C0 D0 (Rlt_le _ _ Hl) (last_source u k0 l S0) (set_prev_norm s Inf) E H None rtol w c p Ew Eo eq_refl HM0 Hcn Hp HS0 Ht)
      as (fuel' & [(y' & EL & Hx)|(y' & EL & _)]); pose proof (loop_more _ _ _ _ _ _ Er fuel') as P; pose proof (loop_more _ _ _ _ _ _ EL fuel) as Q; rewrite Nat.add_comm, P in Q; [|discriminate Q].
    injection Q as _ ->. exact (HKe _ _ E H rtol y' HM0 Ht Hx).
  Qed.
  Lemma rm_never loss : (0 < loss)%R -> dissipates (points_of g) (plus_isotropic e chi) x z m loss ->
    exists s0 tol, new_solution u eps settled thick q = Ok s0 /\ (0 < tol)%R /\ forall l, List.Forall keeps_material l -> let s := history u l s0 in
      vagree 3 (points_of g) (last_source u k0 l src) (fun _ _ => 0) -> (exists c p, (c < 3)%nat /\ CSum.inside (points_of g) p /\ get_E s c p <> 0) ->
      forall rtol fuel (w w' : W) s', (0 < rtol < tol)%R -> solve_method fuel s NoneGiven rtol None w <> Some (Returned w' s').
  Proof.
    intros Hl Hd. pose proof (rm_solvable loss Hl Hd) as HU.
    destruct (rm_family loss ltac:(intros J; destruct (HU J) as (E & H & HM & _); exists E, H; exact HM) (Rlt_le _ _ Hl) Hd) as (s0 & e0 & x0 & z0 & m0 & S0 & Es & HK & Hs & Hi & M0 & C0 & D0 & HA & HW & Hso & Hsh).
    destruct (ma_never eps u (sampled g) k0 e0 x0 z0 m0 nu settled thick kappa loss He H1 Hu Hs Hk0 Hi M0 Hprec C0 D0 (Rlt_le _ _ Hl) Hl) as (tol & Htol & HN).
    exists s0, tol. split; [exact Es|]. split; [exact Htol|]. intros l Hml s H0 (c & p & Hcn & Hp & HE0) rtol fuel w w' y Hrt Er.
    pose proof (kept_history u k0 _ Hso Hsh l S0 s0 HK Hml) as HK'. fold s in HK'. pose proof HK' as (Ew & Eo & _).
    assert (prev_norm s <> Fin 0) as Z. { intros Z. destruct fuel; [discriminate|]. unfold solve_method in Er. cbn [loop] in Er. rewrite (next_raise s true Z) in Er. discriminate. }
    unfold solve_method in Er. cbn [chosen] in Er. rewrite (kept_loop k0 _ Hsh _ s fuel _ true w HK' Z) in Er.
    refine (HN W (last_source u k0 l S0) (set_prev_norm s Inf) rtol fuel w w' y c p Ew Eo eq_refl _ Hcn Hp _ Hrt Er).
    - intros c' p' Hc' Hp'. rewrite (HA l c' p' Hc' Hp'). apply H0; assumption.
    - intros N. apply HE0. unfold get_E, electric_field. cbn [field set_prev_norm] in N. rewrite N. unfold Cdiv. ring.
  Qed.
End Results.
