(** Scalar problems with a permeability that varies. *)
From Coq Require Import Reals Lra Lia List Arith Bool FunctionalExtensionality.
From Coquelicot Require Import Coquelicot.
Require Import Verif.Base Verif.Cplx Verif.CSum Verif.Field Verif.Fourier_Model Verif.Fourier_Spec Verif.Fourier_Proofs.
Require Import Verif.Vec_Model Verif.Vec_Spec Verif.Vec_Proofs Verif.Solver_Model Verif.Solver_Spec Verif.Solver_Proofs.
Require Import Verif.Solver_Convergence Verif.Solver_Limit Verif.Solver_Choice.
Require Import Verif.Choice_Model Verif.Choice_Proofs Verif.Choice_Construct Verif.Magnetic_Choice Verif.Symmetry_Spec Verif.Symmetry_Limit.
Import ListNotations.
Local Open Scope R_scope.
Local Open Scope C_scope.

(** The curl of a field with a single component is zero. *)
Lemma curl_single g F c p : curl g 1 F c p = 0.
Proof.
  unfold curl, convolve, vift. rewrite (ift_ext _ _ (fun _ => 0)); [apply ift_zero|].
  intros k _. unfold curl_ft. cbv zeta. rewrite !Nat.mod_1_r. ring.
Qed.

Section Scalar.
  Variables (g : raster) (alpha : C) (beta : R) (e h h' : sfield) (S : vfield).
  Let o := prepare g false true alpha beta (TScalar e) tzero tzero (TScalar h) S.
  Let o' := prepare g false false alpha beta (TScalar e) tzero tzero (TScalar h') S.
  Lemma single_chi F : chi_op o F = chi_op o' F.
  Proof.
    apply functional_extensionality. intros c. apply functional_extensionality. intros p. unfold chi_op.
    change (o_magnetic o) with true. change (o_magnetic o') with false. cbv iota zeta.
    change (vector_length o) with 1%nat. cbv beta.
    rewrite !curl_single.
    unfold o, o', prepare, update_operators, precondition.
    cbn [o_chiEE o_chiHE o_alpha o_grid tapply tscale tshift tsub tmul tinv tzero tuniform]. ring.
  Qed.
  Lemma single_update F : update o F = update o' F.
  Proof.
    unfold update. cbv zeta. rewrite single_chi.
    change (green_op o) with (green_op o'). change (o_source o) with (o_source o').
    rewrite single_chi. reflexivity.
  Qed.
  Lemma single_next F : next_field o F = next_field o' F.
  Proof. unfold next_field. rewrite single_update. reflexivity. Qed.
  Lemma single_iter F i : Nat.iter i (next_field o) F = Nat.iter i (next_field o') F.
  Proof. induction i as [|i IH]; [reflexivity|]. cbn [Nat.iter nat_rect]. rewrite <- single_next. f_equal. exact IH. Qed.
End Scalar.

Lemma effective_plain e h : effective_epsilon (TScalar e) tzero tzero (TScalar h) = TScalar e.
Proof. unfold effective_epsilon, tzero. cbn [tinv tmul tscale tsub]. f_equal. apply functional_extensionality. intros p. ring. Qed.

Lemma sigma_scalar eps g e ar beta : sigma_EE eps (rshape g) (TScalar e) ar beta = sigmaEE g e ar beta.
Proof.
  unfold sigma_EE, sigmaEE, largest_eigenvalue. do 3 f_equal. apply functional_extensionality. intros p.
  unfold delta_tensor. cbn [tadjoint tscale tadd tsub tmul]. cbv zeta. rewrite eigenvalues_scalar. cbn [map fold_right].
  rewrite Rmax_left by apply Cmod_ge_0. unfold delta_beta2. f_equal. ring.
Qed.

(** The constants that are chosen suffice for the medium with the permeability 1 / beta. *)
Lemma choose_scalar eps g k0 e h settled kappa : (0 < k0)%R -> snd settled <> 0%R -> is_magnetic (rshape g) tzero tzero (TScalar h) = true ->
  exists alpha rho, choose eps (rshape g) (rstep g) k0 (TScalar e) tzero tzero (TScalar h) settled kappa = (alpha, (snd settled * snd settled)%R)
    /\ (0 < snd alpha)%R /\ (0 <= rho < 1)%R
    /\ deviates 1 (rshape g) (TScalar e) (snd settled * snd settled) (fst alpha) (rho * snd alpha).
Proof.
  intros Hk Hs Hm. unfold choose. rewrite Hm. cbv zeta. set (beta := (snd settled * snd settled)%R).
  assert (Hb : (0 < beta)%R) by (unfold beta; nra).
  set (total := singular_value_sum _ _ _ _ _ _ _ _ _). set (ai := increased_bias _ kappa).
  set (sg := sigma_EE eps (rshape g) (TScalar e) (fst settled) beta).
  assert (S0 : (0 <= sg)%R) by (apply sigma_nonneg'; lra).
  assert (T : (sg <= total)%R).
  { unfold total, singular_value_sum. rewrite effective_plain. fold sg. rewrite !singular_EE, sigma_HH_EE.
    assert (D : (0 <= sigma_D (rstep g) k0)%R).
    { unfold sigma_D. apply Rmult_le_pos; [apply sqrt_pos|]. left. apply Rinv_0_lt_compat, Hk. }
    rewrite (Rabs_pos_eq beta) by lra.
    set (D' := sigma_D (rstep g) k0) in *.
    pose proof (sigma_EE_nonneg eps (rshape g) (tinv (TScalar h)) 1 beta Hb) as H1.
    pose proof (sigma_EE_nonneg eps (rshape g) (tscale (- Ci) (tmul tzero (tinv (TScalar h)))) 0 1 Rlt_0_1) as H2.
    pose proof (sigma_EE_nonneg eps (rshape g) (tscale Ci (tmul (tinv (TScalar h)) tzero)) 0 1 Rlt_0_1) as H3.
    set (x1 := sigma_EE _ _ _ 1 beta) in *.
    set (x2 := sigma_EE eps (rshape g) (tscale (- Ci) (tmul tzero (tinv (TScalar h)))) 0 1) in *.
    set (x3 := sigma_EE eps (rshape g) (tscale Ci (tmul (tinv (TScalar h)) tzero)) 0 1) in *.
    assert (0 <= D' * D' * x1)%R by (apply Rmult_le_pos; [apply Rmult_le_pos; exact D|exact H1]).
    assert (0 <= D' * (x2 + x3) / beta)%R.
    { apply Rmult_le_pos; [apply Rmult_le_pos; lra|left; apply Rinv_0_lt_compat, Hb]. }
    lra. }
  assert (A : (total + 5 / 100 <= ai)%R) by (exact (bias_ge (fst settled, total) kappa)).
  exists (fst settled, ai), (sg / ai)%R. cbn [fst snd]. split; [reflexivity|]. assert (Hai : (0 < ai)%R) by lra.
  split; [exact Hai|]. split.
  - split; [apply Rmult_le_pos; [exact S0|left; apply Rinv_0_lt_compat, Hai]|]. apply Rmult_lt_reg_r with ai; [exact Hai|].
    unfold Rdiv. rewrite Rmult_assoc, Rinv_l; lra.
  - replace (sg / ai * ai)%R with sg by (field; lra). unfold sg. rewrite sigma_scalar. apply sigma_deviates, Hb.
Qed.

Lemma scalar_same eps g k0 e h settled kappa S : (0 < k0)%R -> snd settled <> 0%R -> is_magnetic (rshape g) tzero tzero (TScalar h) = true ->
  exists alpha rho, (0 < snd alpha)%R /\ (0 <= rho < 1)%R
    /\ deviates 1 (rshape g) (TScalar e) (snd settled * snd settled) (fst alpha) (rho * snd alpha)
    /\ forall F i, Nat.iter i (next_field (construct eps g k0 false (TScalar e) tzero tzero (TScalar h) settled kappa S)) F
                 = Nat.iter i (next_field (prepare (scaled k0 g) false false alpha (snd settled * snd settled) (TScalar e) tzero tzero (tuniform 1) S)) F.
Proof.
  intros Hk Hs Hm. destruct (choose_scalar eps g k0 e h settled kappa Hk Hs Hm) as (alpha & rho & E & A & B & D).
  exists alpha, rho. refine (conj A (conj B (conj D _))). intros F i. unfold construct. rewrite E, Hm. apply single_iter.
Qed.

(** The iteration converges to the field for the uniform permeability 1 / beta, whatever the permeability that is given. *)
Theorem scalar_ignores eps g k0 e h settled kappa S loss E :
  (0 < k0)%R -> solvable false g k0 -> snd settled <> 0%R -> is_magnetic (rshape g) tzero tzero (TScalar h) = true ->
  (0 < loss)%R -> absorbs 1 (rshape g) (TScalar e) loss ->
  let o := construct eps g k0 false (TScalar e) tzero tzero (TScalar h) settled kappa S in
  computes 1 (rshape g) k0 o E <-> wave_equation false g k0 (snd settled * snd settled) (TScalar e) E S.
Proof.
  intros Hk Hs Hb Hm Hl Ha o. destruct (scalar_same eps g k0 e h settled kappa S Hk Hb Hm) as (alpha & rho & A & B & D & I).
  assert (Hb2 : (0 < snd settled * snd settled)%R) by nra. set (beta := (snd settled * snd settled)%R) in *.
  assert (L : forall F, exists E0, wave_equation false g k0 beta (TScalar e) E0 S /\ (forall E', wave_equation false g k0 beta (TScalar e) E' S -> vagree 1 (rshape g) E' E0) /\
    is_lim_seq (fun i => vnorm2 1 (rshape g) (fun c p => electric_field k0 (Nat.iter i (next_field o) F) c p - E0 c p)) 0%R).
  { intros F. destruct (si_converges false g k0 alpha beta (TScalar e) (tuniform 1) S Hs Logic.I Logic.I A Hb2 loss rho Ha D B F Hl) as (E0 & q & Hq0 & HE & HU & HC).
    exists E0. split; [exact HE|]. split; [exact HU|].
    apply (is_lim_seq_le_le (fun _ => 0%R) _ (fun i => q ^ i * vnorm2 1 (rshape g) (fun c p => electric_field k0 F c p - E0 c p)%C)%R).
    - intros i. split; [apply vnorm2_nonneg|]. unfold o. rewrite I. exact (HC i).
    - apply is_lim_seq_const.
    - replace (Finite 0) with (Finite (0 * vnorm2 1 (rshape g) (fun c p => electric_field k0 F c p - E0 c p)%C)%R) by (f_equal; ring).
      apply is_lim_seq_mult'; [|apply is_lim_seq_const]. apply is_lim_seq_geom. rewrite Rabs_pos_eq; lra. }
  split.
  - intros H. destruct (L (fun _ _ => 0)) as (E0 & HE & _ & HC). pose proof (limits_agree 1 (rshape g) k0 _ E0 E HC (H (fun _ _ => 0))) as X.
    apply (wave_vagree false g k0 beta (TScalar e) E0 E S S); try assumption; [discriminate|exact Logic.I|]. intros c p _ _. reflexivity.
  - intros HE F. destruct (L F) as (E0 & _ & HU & HC). pose proof (HU E HE) as X. eapply is_lim_seq_ext; [|exact HC]. intros i.
    apply vagree_vnorm2. intros c p Hc Hp. rewrite (X c p Hc Hp). reflexivity.
Qed.
Theorem scalar_solvable eps g k0 e h settled kappa S loss :
  (0 < k0)%R -> solvable false g k0 -> snd settled <> 0%R -> is_magnetic (rshape g) tzero tzero (TScalar h) = true ->
  (0 < loss)%R -> absorbs 1 (rshape g) (TScalar e) loss ->
  exists E, computes 1 (rshape g) k0 (construct eps g k0 false (TScalar e) tzero tzero (TScalar h) settled kappa S) E.
Proof.
  intros Hk Hs Hb Hm Hl Ha. destruct (scalar_same eps g k0 e h settled kappa S Hk Hb Hm) as (alpha & rho & A & B & D & I).
  assert (Hb2 : (0 < snd settled * snd settled)%R) by nra.
  destruct (si_converges false g k0 alpha (snd settled * snd settled) (TScalar e) (tuniform 1) S Hs Logic.I Logic.I A Hb2 loss rho Ha D B (fun _ _ => 0) Hl) as (E & q & _ & HE & _).
  exists E. now apply (scalar_ignores eps g k0 e h settled kappa S loss E).
Qed.

(** Plane waves solve the wave equation with two permeabilities only if they are uniform. *)
Lemma laplacian_plane g m c p : proper g -> inside (rshape g) m -> inside (rshape g) p -> (c < 1)%nat ->
  laplacian g (fun _ p => plane_wave g m p) c p = RtoC (- k2 g m) * plane_wave g m p.
Proof.
  intros Hg Hm Hp Hc. unfold laplacian.
  transitivity (convolve (rshape g) (fun F c k => RtoC (- k2 g k) * F c k) (fun c p => RtoC 1 * plane_wave g m p) c p).
  - f_equal. apply functional_extensionality. intros c'. apply functional_extensionality. intros p'. ring.
  - apply (convolve_plane_wave g 1 _ (fun _ => RtoC 1) (fun m c => RtoC (- k2 g m)) m c p); try assumption.
    + intros F G k Hk HFG c' Hc'. rewrite (HFG c' Hc'). reflexivity.
    + intros x. ring.
    + intros k _. ring.
Qed.

Theorem scalar_unsettled eps g k0 e h settled settled' kappa loss m :
  (0 < k0)%R -> solvable false g k0 -> snd settled <> 0%R -> snd settled' <> 0%R ->
  (snd settled * snd settled <> snd settled' * snd settled')%R ->
  is_magnetic (rshape g) tzero tzero (TScalar h) = true -> (0 < loss)%R -> absorbs 1 (rshape g) (TScalar e) loss ->
  inside (rshape g) m -> k2 g m <> 0%R ->
  exists S E E', computes 1 (rshape g) k0 (construct eps g k0 false (TScalar e) tzero tzero (TScalar h) settled kappa S) E
    /\ computes 1 (rshape g) k0 (construct eps g k0 false (TScalar e) tzero tzero (TScalar h) settled' kappa S) E'
    /\ ~ vagree 1 (rshape g) E E'.
Proof.
  intros Hk Hs Hb Hb' Hne Hm Hl Ha Hi H2.
  set (W := fun (_ : nat) (p : list nat) => plane_wave g m p).
  set (beta := (snd settled * snd settled)%R) in *. set (beta' := (snd settled' * snd settled')%R) in *.
  set (S := fun c p => RtoC beta * (- laplacian g W c p) - RtoC (k0 * k0) * (e p * W c p)).
  assert (HW : wave_equation false g k0 beta (TScalar e) W S) by (intros c p Hc Hp; reflexivity).
  destruct (scalar_solvable eps g k0 e h settled' kappa S loss Hk Hs Hb' Hm Hl Ha) as [E' HE'].
  exists S, W, E'. refine (conj _ (conj HE' _)); [now apply (scalar_ignores eps g k0 e h settled kappa S loss W)|]. intros X.
  apply (scalar_ignores eps g k0 e h settled' kappa S loss E') in HE'; try assumption. fold beta' in HE'.
  assert (HW' : wave_equation false g k0 beta' (TScalar e) W S).
  { apply (wave_vagree false g k0 beta' (TScalar e) E' W S S); try assumption; [discriminate|exact Logic.I|].
    intros c p Hc Hp. symmetry. now apply X. }
  pose proof (HW' 0%nat m Nat.lt_0_1 Hi) as Y. unfold S in Y. cbn [curl_curl_op tapply] in Y.
  pose proof (laplacian_plane g m 0%nat m (proj1 Hs) Hi Hi Nat.lt_0_1) as P. fold W in P. rewrite P in Y. unfold W in Y.
  assert (Z : RtoC ((beta' - beta) * k2 g m) * plane_wave g m m = 0).
  { rewrite RtoC_mult, RtoC_minus.
    replace ((RtoC beta' - RtoC beta) * RtoC (k2 g m) * plane_wave g m m)
      with ((RtoC beta' * (- (RtoC (- k2 g m) * plane_wave g m m)) - RtoC (k0 * k0) * (e m * plane_wave g m m))
            - (RtoC beta * (- (RtoC (- k2 g m) * plane_wave g m m)) - RtoC (k0 * k0) * (e m * plane_wave g m m)))
      by (rewrite RtoC_opp; ring).
    rewrite Y. ring. }
  revert Z. apply Cmult_neq_0.
  - apply RtoC_neq. intros Q. apply Rmult_integral in Q as [Q|Q]; [apply Hne; lra|contradiction].
  - unfold plane_wave. intros Q. pose proof (cis_mod (rsum (rndim g) (fun axis => (wavevector g m axis * position g m axis)%R))) as Q'.
    rewrite Q, Cmod_0 in Q'. lra.
Qed.
