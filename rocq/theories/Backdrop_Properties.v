(** The background of a beam: C198. *)
From Coq Require Import Reals List Arith Bool ZArith Lia Lra.
Require Import Verif.Base Verif.CSum Verif.Field Verif.Fourier_Model Verif.Fourier_Spec Verif.Vec_Model Verif.Modes_Model Verif.Robust_Spec Verif.Robust_Proofs.
Require Import Verif.Beam_Model Verif.Beam_Spec Verif.Beam_Proofs Verif.Beam_Media Verif.Beam_Slices Verif.Beam_Power Verif.Beam_Properties Verif.Nearby_Spec Verif.Nearby_Proofs Verif.Neglect_Spec Verif.Neglect_Proofs Verif.Detour_Spec Verif.Detour_Proofs Verif.Backdrop_Spec Verif.Backdrop_Proofs Verif.Cplx.
Import ListNotations.
Local Open Scope R_scope.
Local Open Scope C_scope.

(** The spectrum behind slices of given refractive indices depends on the refractive index that is chosen for the background by no more than in proportion to the square of the largest transverse wavenumber and to the total thickness; apart from what is neglected (C194). *)
Theorem background_choice_partial : forall (g : raster) (first : nat -> R) (axis : nat) (k0 n0 n1 T : R) (F : vfield) (l : list (R * option sfield)) (s s' : section),
  section_grid g axis -> (0 < k0)%R -> (0 < n0)%R -> (0 < n1)%R -> Forall (given_slice g) l -> (forall q, inside (rshape g) q -> (kt2 g axis q <= T)%R) ->
  let b := with_background g first axis k0 n0 in let b' := with_background g first axis k0 n1 in
  (gap b (read_ft b (run b s (SetFt F :: there l))) (read_ft b' (run b' s' (SetFt F :: there l))) <=
   (total_thickness l * (T / (k0 * Rmin n0 n1)) + all_neglected b (k0 * n0) l + all_neglected b' (k0 * n1) l + k0 * (n0 + n1) * / 100000000) * size 1 (rshape g) F
   + INR (2 * slices (there l)) * (sqrt (INR (points (rshape g))) / 100000000))%R.
Proof.
  intros g first axis k0 n0 n1 T F l s s' G K0 P P' A HT b b'. eapply Rle_trans; [exact (beam_back g first axis k0 G K0 n0 n1 T l F s s' P P' A HT)|]. fold b b'. unfold slack. change (size (bcomp b) (bshape b) F) with (size 1 (rshape g) F). change (size (bcomp b') (bshape b') F) with (size 1 (rshape g) F). change (bcomp b * points (bshape b))%nat with (1 * points (rshape g))%nat. change (bcomp b' * points (bshape b'))%nat with (1 * points (rshape g))%nat. rewrite Nat.mul_1_l, mult_INR. change (INR 2) with (1 + 1)%R. clearbody b b'. lra.
Qed.
Print Assumptions background_choice_partial.

(** But the choice does matter: a homogeneous medium that is given as the background, and the same medium in another background, can give opposite fields. *)
Definition tilted : raster := {| rshape := [1; 1; 3]%nat; rstep := [1%R; 0%R; (2 * PI / 9)%R] |}.
Lemma tilted_grid : section_grid tilted 0.
Proof. pose proof PI_RGT_0 as Pi. repeat split; try (cbn; lia); try (repeat constructor; lia). intros c Hc H. destruct c as [|[|[|]]]; cbn in *; lia || lra. Qed.
Lemma tilted_kt2 : kt2 tilted 0 [0; 0; 1]%nat = 9%R.
Proof.
  pose proof PI_RGT_0. unfold kt2. rewrite rsum3. cbn [Nat.eqb]. unfold kvec, k_axis. cbn [tilted rshape rstep nth]. change (k_index 1 0) with 0%Z. change (k_index 3 1) with 1%Z. assert (forall x, 2 * PI * 0 / x = 0)%R as Z by (intros; unfold Rdiv; ring). rewrite !Z. cbn [INR]. field. lra.
Qed.
Theorem background_choice_refuted : exists (g : raster) (first : nat -> R) (axis : nat) (k0 n0 n1 d : R) (F : vfield) (q : list nat), section_grid g axis /\ (0 < k0)%R /\ (0 < n0)%R /\ (0 < n1)%R /\ (0 < d)%R /\ inside (rshape g) q /\
  let b := with_background g first axis k0 n0 in let b' := with_background g first axis k0 n1 in let medium := fun _ : list nat => RtoC n0 in
  forall s s', read_ft b (run b s [SetFt F; Propagate d (Some medium)]) 0%nat q = 1 /\ read_ft b' (run b' s' [SetFt F; Propagate d (Some medium)]) 0%nat q = - (1).
Proof.
  exists tilted, (fun _ => 0%R), 0%nat, 5%R, 1%R, (2 / 5)%R, PI, (fun _ _ => RtoC 1), [0; 0; 1]%nat. pose proof PI_RGT_0 as Pi. pose proof PI2_3_2 as Pi2. split; [exact tilted_grid|]. do 4 (split; [lra|]). split; [repeat constructor; lia|]. intros b b' medium s s'.
  assert (forall a : setup, uniform a medium = true) as U.
  { intros a. apply uniform_true. intros p _. unfold medium. replace (RtoC 1 - RtoC 1) with (RtoC 0) by ring. rewrite Cmod_0. pose proof (Cmod_ge_0 (RtoC 1)). lra. }
  assert (tiny (Rabs (0 + PI)) = false) as NT by (unfold tiny, Rleb; rewrite Rabs_pos_eq by lra; destruct (Rle_dec (0 + PI) (/ 100000000)) as [L|]; [exfalso; lra|reflexivity]).
  assert (axial tilted 0 5 [0; 0; 1]%nat = 4%R) as A5 by (unfold axial; rewrite tilted_kt2, Rmax_right by lra; replace (5 * 5 - 9)%R with (4 * 4)%R by ring; apply sqrt_square; lra).
  assert (axial tilted 0 2 [0; 0; 1]%nat = 0%R) as A2 by (unfold axial; rewrite tilted_kt2, Rmax_left by lra; apply sqrt_0).
  unfold run. cbn [fold_left act]. rewrite !propagate_forward by exact Pi. unfold read_ft, settle. split.
  - assert (tiny (Cmod (excess b (medium origin))) = true) as Ti.
    { unfold excess, medium, b. cbn [with_background bn]. replace (RtoC 1 / RtoC 1 - 1) with (RtoC 0) by (apply injective_projections; cbn; field). rewrite Cmod_0. unfold tiny, Rleb. destruct (Rle_dec 0 (/ 100000000)) as [|n]; [reflexivity|exfalso; lra]. }
    unfold interact. rewrite U, Ti. unfold set_ft. cbn [move pending]. rewrite NT. cbn [field_hat]. rewrite (project_scalar b eq_refl).
    rewrite (propagator_real b 5) by (lra || exact tilted_grid || (unfold b; cbn; f_equal; ring)). change (bgrid b) with tilted. change (baxis b) with 0%nat. rewrite A5. replace (0 + PI)%R with PI by ring. unfold cis. replace (PI * 4)%R with (0 + 2 * INR 2 * PI)%R by (cbn; ring). rewrite cos_period, sin_period, cos_0, sin_0. apply injective_projections; cbn; ring.
  - assert (excess b' (medium origin) = RtoC (3 / 2)) as Ex by (unfold excess, medium, b'; cbn [with_background bn]; apply injective_projections; cbn; field).
    assert (tiny (Cmod (excess b' (medium origin))) = false) as Ti.
    { rewrite Ex, Cmod_R, Rabs_pos_eq by lra. unfold tiny, Rleb. destruct (Rle_dec (3 / 2) (/ 100000000)) as [L|]; [exfalso; lra|reflexivity]. }
    unfold interact. rewrite U, Ti. unfold set_ft. cbn [move pending]. rewrite NT. cbn [field_hat]. rewrite (project_scalar b' eq_refl), Ex.
    rewrite (propagator_real b' 2) by (lra || exact tilted_grid || (unfold b'; cbn; f_equal; field)). change (bgrid b') with tilted. change (baxis b') with 0%nat. change (bk b') with (RtoC (5 * (2 / 5))). rewrite A2.
    replace (cexp (Ci * RtoC (5 * (2 / 5)) * RtoC (3 / 2) * RtoC PI)) with (cis (PI + 2 * INR 1 * PI)).
    + replace ((0 + PI) * 0)%R with 0%R by ring. unfold cis. rewrite cos_period, sin_period, cos_0, sin_0, cos_PI, sin_PI. apply injective_projections; cbn; ring.
    + unfold cexp. replace (Ci * RtoC (5 * (2 / 5)) * RtoC (3 / 2) * RtoC PI) with ((0, 3 * PI)%R : C) by (apply injective_projections; cbn; field). cbn [fst snd]. rewrite exp_0. replace (PI + 2 * INR 1 * PI)%R with (3 * PI)%R by (cbn; ring). ring.
Qed.
Print Assumptions background_choice_refuted.

(** ** Concrete cases *)
(** Gratings on this section, with transverse wavenumbers up to 3. *)
Example background_gratings : forall n, Forall (given_slice tilted) (gratings n) /\ (forall q, inside (rshape tilted) q -> (kt2 tilted 0 q <= 9)%R).
Proof.
  intros n. pose proof PI_RGT_0. split.
  - apply Forall_forall. intros x Hx. apply repeat_spec in Hx. subst x. split; [cbn [fst]; lra|]. exists grating. split; [reflexivity|]. intros p _. unfold grating. destruct (idx_eqb p [0; 0; 1]%nat); cbn; lra.
  - intros q Hq. cbn [tilted rshape] in Hq. unfold inside in Hq. repeat match goal with H : Forall2 _ (_ :: _) _ |- _ => inversion H; clear H; subst | H : Forall2 _ [] _ |- _ => inversion H; clear H; subst end. repeat match goal with H : (?x < 1)%nat |- _ => assert (x = 0%nat) by lia; subst x; clear H end.
    assert (forall j, (j < 3)%nat -> (kt2 tilted 0 [0; 0; j]%nat = 3 * IZR (k_index 3 j) * (3 * IZR (k_index 3 j)))%R) as E.
    { intros j _. unfold kt2. rewrite rsum3. cbn [Nat.eqb]. unfold kvec, k_axis. cbn [tilted rshape rstep nth]. change (k_index 1 0) with 0%Z. assert (forall x, 2 * PI * 0 / x = 0)%R as Z by (intros; unfold Rdiv; ring). rewrite !Z. cbn [INR]. field. lra. }
     rewrite E by assumption. match goal with H : (?x < 3)%nat |- _ => rename x into x3 end. destruct x3 as [|[|[|]]]; [change (k_index 3 0) with 0%Z|change (k_index 3 1) with 1%Z|change (k_index 3 2) with (-1)%Z|lia]; lra.
Qed.
