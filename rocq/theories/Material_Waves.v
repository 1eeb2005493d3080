(** Uniform permeabilities: plane waves in media with a negative refractive index, and lossy permeabilities. *)
From Coq Require Import Reals Lra Lia List Arith Bool FunctionalExtensionality.
Require Import Verif.Base Verif.Cplx Verif.CSum Verif.Field Verif.Fourier_Model Verif.Fourier_Spec Verif.Fourier_Proofs Verif.Display_Model.
Require Import Verif.Modes_Model Verif.Roots_Model Verif.Eigen_Bound.
Require Import Verif.Vec_Model Verif.Vec_Spec Verif.Vec_Proofs Verif.Solver_Model Verif.Solver_Spec Verif.Solver_Proofs.
Require Import Verif.Solver_Convergence Verif.Solver_Limit Verif.Solver_Choice Verif.Choice_Model Verif.Choice_Proofs Verif.Choice_Construct Verif.Choice_Gain Verif.Array_Spec Verif.Material_Spec.
Import ListNotations.
Local Open Scope R_scope.
Local Open Scope C_scope.

(** ** Plane waves in uniform media *)
Section Wave.
  Variables (v : bool) (g : raster) (alpha : C) (beta : R) (e mu : C) (m : list nat) (a : nat -> C).
  Hypothesis Hg : proper g.
  Hypothesis Hn : v = true -> (rndim g <= 3)%nat.
  Hypothesis Hm : inside (rshape g) m.
  Hypothesis Ha : snd alpha <> 0%R.
  Hypothesis Hb : beta <> 0%R.
  Hypothesis Ht : v = true -> k2 g m <> 0%R /\ csum (rndim g) (fun i => RtoC (kvec g i m) * a i) = 0.
  Let o := prepare g v false alpha beta (tuniform e) tzero tzero (tuniform mu) (fun _ _ => 0).
  Let n := (if v then 3 else 1)%nat.
  Let X := Ci / im alpha * (e / RtoC beta - alpha).
  Let G := - Ci * im alpha / (RtoC (k2 g m) - alpha).
  Let wave (x : C) : vfield := fun c p => x * a c * plane_wave g m p.

  Lemma im_neq : im alpha <> 0.
  Proof. unfold im. apply RtoC_neq, Ha. Qed.
  Lemma wave_chi F c p : chi_op o F c p = X * F c p.
  Proof.
    pose proof im_neq as Hi. pose proof (RtoC_neq beta Hb) as Hb'. pose proof Ci_neq as HC. unfold o. cbn -[Cmult Cplus Cdiv Copp Cminus]. unfold X. fold (im alpha).
    unfold Cdiv. generalize (/ mu). intros w. field. auto.
  Qed.
  Lemma wave_source c p : o_source o c p = 0.
  Proof. unfold o. cbn -[Cmult Cplus Cdiv Copp Cminus]. unfold Cdiv. ring. Qed.
  Lemma wave_ft x c : g_ft_op o (fun c _ => x * a c) c m = x * (G * a c).
  Proof.
    unfold g_ft_op. change (o_vectorial o) with v. change (o_grid o) with g. change (o_alpha o) with alpha. destruct v eqn:Ev.
    - destruct (Ht eq_refl) as [K T]. assert (L : longitudinal_ft g (fun c _ => x * a c) c m = 0).
      { unfold longitudinal_ft. destruct (Nat.ltb c (rndim g)); [|reflexivity]. destruct (is_origin m) eqn:O; [exfalso; apply K; exact (k2_origin g m Hg Hm O)|].
        rewrite (csum_ext _ _ (fun i => x * (RtoC (kvec g i m) * a i))) by (intros; ring). rewrite csum_scal, T. unfold Cdiv. ring. }
      rewrite L. unfold g_scalar. change (o_alpha o) with alpha. change (o_grid o) with g. fold G. ring.
    - unfold g_scalar. change (o_alpha o) with alpha. change (o_grid o) with g. fold G. ring.
  Qed.
  Lemma g_ft_zero c k : g_ft_op o (fun _ _ => 0) c k = 0.
  Proof.
    unfold g_ft_op. assert (L : longitudinal_ft (o_grid o) (fun _ _ => 0) c k = 0).
    { unfold longitudinal_ft. destruct (Nat.ltb _ _); [|reflexivity]. destruct (is_origin k); [reflexivity|]. rewrite (csum_ext _ _ (fun _ => 0)) by (intros; ring). rewrite csum_zero. unfold Cdiv. ring. }
    rewrite L. destruct (o_vectorial o); ring.
  Qed.
  Lemma wave_green x : vagree n (rshape g) (green_op o (wave x)) (wave (G * x)).
  Proof.
    intros c p Hc Hp. unfold green_op. change (rshape (o_grid o)) with (rshape g). unfold wave.
    rewrite (convolve_plane_wave g n (g_ft_op o) (fun c => x * a c) (fun _ c => G * (x * a c)) m c p); try assumption.
    - ring.
    - apply (g_pointwise o n). change (o_vectorial o) with v. change (o_grid o) with g. intros E. unfold n. rewrite E. apply Hn, E.
    - intros y. replace (fun (c : nat) (_ : list nat) => y * (x * a c)) with (fun (c : nat) (_ : list nat) => (y * x) * a c) by (apply functional_extensionality; intros d; apply functional_extensionality; intros; ring).
      rewrite wave_ft. ring.
    - intros k Hk. apply g_ft_zero.
  Qed.
  Lemma wave_fine : o_vectorial o = true -> (rndim (o_grid o) <= n)%nat.
  Proof. change (o_vectorial o) with v. change (o_grid o) with g. intros E. unfold n. rewrite E. apply Hn, E. Qed.
  Lemma wave_update F x : vagree n (rshape g) F (wave x) -> vagree n (rshape g) (update o F) (wave (X * (G * X - 1) * x)).
  Proof.
    intros HF c p Hc Hp. unfold update. rewrite wave_chi.
    assert (E : green_op o (fun c p => chi_op o F c p + o_source o c p) c p = wave (G * (X * x)) c p).
    { rewrite <- (wave_green (X * x) c p Hc Hp). unfold green_op. apply (convolve_vagree (rshape (o_grid o)) n _ _ _ (g_pointwise o n wave_fine)); [|exact Hc|exact Hp].
      intros d q Hd Hq. rewrite wave_chi, wave_source, HF by assumption. unfold wave. ring. }
    rewrite E, HF by assumption. unfold wave. ring.
  Qed.
  Lemma wave_next F x : vagree n (rshape g) F (wave x) -> vagree n (rshape g) (next_field o F) (wave ((1 + X * (G * X - 1)) * x)).
  Proof. intros HF c p Hc Hp. unfold next_field. rewrite (wave_update F x HF c p Hc Hp), HF by assumption. unfold wave. ring. Qed.
End Wave.

(** ** Negative refractive index *)
Section Negative.
  Variables (eps : R) (v : bool) (g : raster) (k0 : R) (idx : C) (settled : R * R) (kappa : option R) (m : list nat) (a : nat -> C).
  Hypothesis He : (0 < eps)%R.
  Hypothesis H1 : (2 * eps <= 1)%R.
  Hypothesis Hs : solvable v g k0.
  Hypothesis Hre : (fst idx < 0)%R.
  Hypothesis Him : (0 < snd idx < - fst idx)%R.
  Hypothesis Hm : inside (rshape g) m.
  Hypothesis Hk : k2 g m = (k0 * k0 * (fst idx * fst idx - snd idx * snd idx))%R.
  Hypothesis Ht : v = true -> csum (rndim g) (fun i => RtoC (kvec g i m) * a i) = 0.
  Let e := - (idx * idx).
  Let o := construct eps g k0 v (tuniform e) tzero tzero (tuniform (- (1))) settled kappa (fun _ _ => 0).
  Let n := (if v then 3 else 1)%nat.
  Let loss := (- (2 * fst idx * snd idx))%R.

  Lemma ng_loss : (0 < loss)%R.
  Proof. unfold loss. nra. Qed.
  Lemma ng_snd : snd e = loss.
  Proof. unfold e, loss. cbn. ring. Qed.
  Lemma ng_no_gain : some_gain eps (rshape g) (tuniform e) tzero tzero (tuniform (- (1))) = false.
  Proof.
    unfold some_gain. change tzero with (tuniform (RtoC 0)). rewrite !no_gain_uniform; try assumption; try reflexivity; [cbn; lra|cbn; lra|]. rewrite ng_snd. left. exact ng_loss.
  Qed.
  Lemma ng_construct : exists alpha, (0 < snd alpha)%R /\ o = prepare (scaled k0 g) v false alpha (-1) (tuniform e) tzero tzero (tuniform (- (1))) (fun _ _ => 0).
  Proof.
    unfold o, construct, choose. rewrite not_magnetic, effective_nonmagnetic. unfold transposes. rewrite ng_no_gain. cbn [andb].
    assert (Eb : fst (first (rshape g) (tinv (tuniform (- (1))))) = (-1)%R).
    { unfold first, tuniform, tinv, elements. cbn [hd]. cbn. field. }
    rewrite Eb. eexists. split; [|reflexivity]. cbn [snd].
    match goal with |- (0 < increased_bias ?x kappa)%R => pose proof (bias_ge x kappa) as Hi end. cbn [snd] in Hi.
    pose proof (sigma_nonneg' eps (rshape g) (tuniform e) (fst settled) (-1) ltac:(lra)). lra.
  Qed.
  Lemma ng_wave p : inside (rshape g) p -> plane_wave (scaled k0 g) m p = plane_wave g m p.
  Proof.
    intros Hp. destruct Hs as (Hg & Hk0 & _). rewrite plane_wave_phase, (plane_wave_phase g) by (try apply scaled_proper; assumption). reflexivity.
  Qed.
  (** The factor by which the resonant wave is multiplied in each iteration. *)
  Lemma ng_factor alpha : (0 < snd alpha)%R ->
    let X := Ci / im alpha * (e / RtoC (-1) - alpha) in let G := - Ci * im alpha / (RtoC (fst idx * fst idx - snd idx * snd idx) - alpha) in
    (loss / snd alpha <= fst (X * (G * X - 1))%C)%R.
  Proof.
    intros Ha X G. set (r := (fst idx * fst idx - snd idx * snd idx)%R). set (d := (r - fst alpha)%R). set (ai := snd alpha) in *. pose proof ng_loss as Hl.
    assert (Q : (0 < d * d + ai * ai)%R) by nra.
    assert (N : (d, (- ai)%R) <> RtoC 0).
    { intros E. apply (f_equal snd) in E. cbn in E. lra. }
    assert (E1 : e / RtoC (-1) = (r, (- loss)%R)).
    { unfold e, r, loss. destruct idx as [x y]. apply injective_projections; cbn; field. }
    assert (E2 : e / RtoC (-1) - alpha = (d, (- (loss + ai))%R)).
    { rewrite E1. unfold d. destruct alpha as [x y]. unfold ai. apply injective_projections; cbn; ring. }
    assert (E3 : RtoC r - alpha = (d, (- ai)%R)).
    { unfold d, ai. destruct alpha as [x y]. apply injective_projections; cbn; ring. }
    assert (I0 : im alpha <> 0) by (unfold im; apply RtoC_neq; fold ai; lra).
    assert (E : X * (G * X - 1) = RtoC (loss / ai) * ((d, (- (loss + ai))%R) / (d, (- ai)%R))).
    { unfold X, G. fold r. rewrite E2, E3.
      assert (D : (d, (- (loss + ai))%R) = (d, (- ai)%R) - Ci * RtoC loss) by (apply injective_projections; cbn; ring).
      rewrite RtoC_div by lra. replace (RtoC ai) with (im alpha) by reflexivity. rewrite D. set (w := (d, (- ai)%R)) in *.
      replace (Ci / im alpha * (w - Ci * RtoC loss) * (- Ci * im alpha / w * (Ci / im alpha * (w - Ci * RtoC loss)) - 1))
        with (Ci / im alpha * (w - Ci * RtoC loss) * (- (Ci * Ci) * (w - Ci * RtoC loss) / w - 1)) by (field; auto).
      rewrite Ci_sq.
      transitivity (- (Ci * Ci) * (RtoC loss / im alpha * ((w - Ci * RtoC loss) / w))); [field; auto|]. rewrite Ci_sq. ring. }
    rewrite E. assert (F : fst (RtoC (loss / ai) * ((d, (- (loss + ai))%R) / (d, (- ai)%R))) = (loss / ai * ((d * d + (loss + ai) * ai) / (d * d + ai * ai)))%R).
    { cbn. field. split; [lra|]. nra. }
    rewrite F. assert (0 < loss / ai)%R by (apply Rdiv_lt_0_compat; assumption).
    assert (1 <= (d * d + (loss + ai) * ai) / (d * d + ai * ai))%R.
    { apply Rmult_le_reg_r with (d * d + ai * ai)%R; [exact Q|]. unfold Rdiv. rewrite Rmult_assoc, Rinv_l by lra. nra. }
    nra.
  Qed.
  Let F := fun c p => a c * plane_wave g m p.
  Lemma ng_grows : exists q, (1 < q)%R /\ forall i, vnorm2 n (rshape g) (Nat.iter i (next_field o) F) = (q ^ i * vnorm2 n (rshape g) F)%R.
  Proof.
    destruct ng_construct as (alpha & Ha & Eo). destruct Hs as (Hg & Hk0 & Hn). pose proof (ng_factor alpha Ha) as Hf. cbv zeta in Hf.
    set (X := Ci / im alpha * (e / RtoC (-1) - alpha)) in *. pose proof (scaled_proper k0 g Hk0 Hg) as Hg'.
    assert (Er : k2 (scaled k0 g) m = (fst idx * fst idx - snd idx * snd idx)%R) by (rewrite k2_scaled, Hk by assumption; field; exact Hk0).
    set (G := - Ci * im alpha / (RtoC (fst idx * fst idx - snd idx * snd idx) - alpha)) in *.
    set (M := 1 + X * (G * X - 1)).
    assert (HM : (1 < Cmod M)%R).
    { apply Rlt_le_trans with (fst M); [|apply Rle_trans with (Rabs (fst M)); [apply RRle_abs|apply Cmod_Re_le]]. unfold M.
      assert (0 < loss / snd alpha)%R by (apply Rdiv_lt_0_compat; [exact ng_loss|exact Ha]). change (fst (1 + X * (G * X - 1))) with (1 + fst (X * (G * X - 1))%C)%R. lra. }
    assert (W : forall i, exists x, Cmod x = (Cmod M ^ i)%R /\ vagree n (rshape g) (Nat.iter i (next_field o) F) (fun c p => x * a c * plane_wave (scaled k0 g) m p)).
    { induction i as [|i (x & Hx & IH)].
      - exists (RtoC 1). split; [rewrite Cmod_1; reflexivity|]. intros c p Hc Hp. rewrite ng_wave by exact Hp. cbn. unfold F. ring.
      - exists (M * x). split; [rewrite Cmod_mult, Hx; reflexivity|]. change (Nat.iter (Datatypes.S i) (next_field o) F) with (next_field o (Nat.iter i (next_field o) F)). rewrite Eo at 1.
        unfold M, X, G. rewrite <- Er.
        apply (wave_next v (scaled k0 g) alpha (-1) e (- (1)) m a Hg' (fun E => eq_ind_r (fun y => (y <= 3)%nat) (Hn E) (scaled_ndim k0 g)) Hm); [lra|lra| |exact IH].
        intros E. split.
        + rewrite Er. nra.
        + rewrite scaled_ndim. rewrite (csum_ext _ _ (fun i => RtoC (/ k0) * (RtoC (kvec g i m) * a i))); [rewrite csum_scal, (Ht E); ring|].
          intros j Hj. rewrite kvec_scaled by assumption. unfold Rdiv. rewrite RtoC_mult. ring. }
    exists (Cmod M * Cmod M)%R. split; [nra|]. intros i. destruct (W i) as (x & Hx & E). rewrite (vagree_vnorm2 n _ _ _ E).
    rewrite (vagree_vnorm2 n (rshape g) _ (fun c p => x * F c p)) by (intros c p Hc Hp; rewrite ng_wave by exact Hp; unfold F; ring).
    rewrite vnorm2_scal, Hx. rewrite Rpow_mult_distr. reflexivity.
  Qed.
End Negative.

(** ** A uniform complex permeability *)
Section Lossy.
  Variables (eps : R) (v : bool) (g : raster) (k0 : R) (epsilon : tensor) (mu : C) (settled : R * R) (kappa : option R) (S : vfield).
  Hypothesis He : (0 < eps)%R.
  Hypothesis H1 : (2 * eps <= 1)%R.
  Hypothesis Hs : solvable v g k0.
  Hypothesis Hf : fits v epsilon.
  Let n := (if v then 3 else 1)%nat.
  Hypothesis Ha : absorbs n (rshape g) epsilon 0.
  Hypothesis Hre : (0 < fst mu)%R.
  Hypothesis Him : (0 <= snd mu)%R.
  Let beta := fst (1 / mu).
  Hypothesis Hq : (800 * sqrt eps < beta * beta)%R.
  Let o := construct eps g k0 v epsilon tzero tzero (tuniform mu) settled kappa S.

  Lemma ly_beta : (0 < beta)%R.
  Proof.
    unfold beta. destruct mu as [x y]. cbn in *. assert (0 < x * x + y * y)%R by nra.
    match goal with |- (0 < ?t)%R => replace t with (x / (x * x + y * y))%R by (field; nra) end. apply Rdiv_lt_0_compat; assumption.
  Qed.
  Lemma ly_alpha : exists alpha rho, o = prepare (scaled k0 g) v false alpha beta epsilon tzero tzero (tuniform mu) S
    /\ (0 < snd alpha)%R /\ (0 <= rho < 1)%R /\ deviates n (rshape g) epsilon beta (fst alpha) (rho * snd alpha).
  Proof.
    unfold o, construct, choose. rewrite not_magnetic, effective_nonmagnetic. unfold transposes, some_gain. change tzero with (tuniform (RtoC 0)).
    rewrite (no_gain_found eps He H1 v (rshape g) epsilon Hf Ha), !no_gain_uniform by (try assumption; cbn; lra). cbn [andb orb].
    change (fst (first (rshape g) (tinv (tuniform mu)))) with beta. pose proof ly_beta as Hb. set (sigma := sigma_EE eps (rshape g) epsilon (fst settled) beta).
    assert (S0 : (0 <= sigma)%R) by (apply sigma_nonneg'; lra).
    set (ai := increased_bias (fst settled, sigma) kappa). pose proof (bias_ge (fst settled, sigma) kappa) as Hi. cbn [snd] in Hi. fold ai in Hi.
    pose proof (sqrt_lt_R0 eps He) as Hsq. assert (B2 : (0 < beta * beta)%R) by nra.
    set (d2 := (sigma * sigma + 2 * sqrt eps / (beta * beta))%R).
    assert (Hsm : (0 <= 2 * sqrt eps / (beta * beta) < 1 / 400)%R).
    { split; [apply Rmult_le_pos; [lra|left; apply Rinv_0_lt_compat, B2]|]. apply Rmult_lt_reg_r with (beta * beta)%R; [exact B2|]. unfold Rdiv. rewrite Rmult_assoc, Rinv_l by lra. lra. }
    assert (Hd2 : (0 <= d2)%R) by (unfold d2; nra).
    assert (Hd : (sqrt d2 < sigma + 5 / 100)%R).
    { rewrite <- (sqrt_square (sigma + 5 / 100)) by lra. apply sqrt_lt_1_alt. split; [exact Hd2|]. unfold d2. nra. }
    pose proof (sqrt_pos d2) as Hd0.
    exists (fst settled, ai), (sqrt d2 / ai)%R. split; [reflexivity|]. cbn [fst snd]. assert (Hai : (0 < ai)%R) by lra. split; [exact Hai|]. split.
    - split; [apply Rmult_le_pos; [exact Hd0|left; apply Rinv_0_lt_compat, Hai]|]. apply Rmult_lt_reg_r with ai; [exact Hai|]. unfold Rdiv. rewrite Rmult_assoc, Rinv_l; lra.
    - replace (sqrt d2 / ai * ai)%R with (sqrt d2) by (field; lra). apply (sigma_EE_bounds eps He H1 v (rshape g) epsilon (fst settled) beta (sqrt d2) Hf Hb Hd0).
      rewrite sqrt_sqrt by exact Hd2. apply Rle_refl.
  Qed.
  Lemma ly_fixed F : vagree n (rshape g) (update o F) (fun _ _ => 0) <-> wave_equation v g k0 beta epsilon (electric_field k0 F) S.
  Proof.
    destruct ly_alpha as (alpha & rho & E & Pa & Hr & Hd). rewrite E.
    exact (si_fixed v g k0 alpha beta epsilon (tuniform mu) S Hs Hf I Pa ly_beta rho Hd Hr F).
  Qed.
  (** For a complex permeability the solution is that of another equation, unless its curl is uniform. *)
  Lemma ly_wrong F : vagree n (rshape g) (update o F) (fun _ _ => 0) -> snd mu <> 0%R ->
    (wave_equation_in mu v g k0 epsilon (electric_field k0 F) S <-> vagree n (rshape g) (curl_curl_op v g (electric_field k0 F)) (fun _ _ => 0)).
  Proof.
    intros HF Hc. apply ly_fixed in HF. set (E := electric_field k0 F) in *. assert (Hmu : mu <> 0) by (intros Z; rewrite Z in Hre; cbn in Hre; lra).
    assert (D : 1 / mu - RtoC beta <> 0).
    { intros Z. apply (f_equal snd) in Z. unfold beta in Z. destruct mu as [x y]. cbn in *. assert (0 < x * x + y * y)%R by nra. apply Hc.
      apply Rmult_eq_reg_r with (/ (x * x + y * y))%R; [|apply Rinv_neq_0_compat; lra]. rewrite Rmult_0_l.
      match type of Z with ?t = _ => replace t with (- (y * / (x * x + y * y)))%R in Z by (field; nra) end. lra. }
    split.
    - intros HW c p Hn' Hp. specialize (HF c p Hn' Hp). specialize (HW c p Hn' Hp). cbv beta in *.
      assert (Q : (1 / mu - RtoC beta) * curl_curl_op v g E c p = 0).
      { replace ((1 / mu - RtoC beta) * curl_curl_op v g E c p) with ((curl_curl_op v g E c p / mu - RtoC (k0 * k0) * tapply epsilon E c p) - (RtoC beta * curl_curl_op v g E c p - RtoC (k0 * k0) * tapply epsilon E c p)) by (field; exact Hmu).
        rewrite HF, HW. ring. }
      replace (curl_curl_op v g E c p) with (/ (1 / mu - RtoC beta) * ((1 / mu - RtoC beta) * curl_curl_op v g E c p)) by (rewrite Cmult_assoc, Cinv_l by exact D; ring). rewrite Q. ring.
    - intros HC c p Hn' Hp. specialize (HF c p Hn' Hp). specialize (HC c p Hn' Hp). cbv beta in *. rewrite <- HF, HC. field. exact Hmu.
  Qed.
End Lossy.

(** ** Variations of the permeability that are neglected *)
Lemma effective_scalar epsilon f : effective_epsilon epsilon tzero tzero (TScalar f) = epsilon.
Proof.
  unfold effective_epsilon, tzero. destruct epsilon as [h|h]; cbn [tinv tmul tscale tsub]; f_equal.
  - apply functional_extensionality. intros p. ring.
  - apply functional_extensionality. intros i. apply functional_extensionality. intros j. apply functional_extensionality. intros p. ring.
Qed.
Lemma variation_ignored eps v g k0 epsilon f settled kappa S F : (0 < eps)%R -> (2 * eps <= 1)%R -> fits v epsilon ->
  absorbs (if v then 3 else 1) (rshape g) epsilon 0 -> (forall p, inside (rshape g) p -> (0 <= snd (f p))%R) -> Forall (fun n => 0 < n)%nat (rshape g) ->
  let m := f (map (fun _ => 0%nat) (rshape g)) in
  (forall p, inside (rshape g) p -> (Cmod (f p - m)%C <= 1 / 100000000 + 1 / 100000 * Cmod m)%R) ->
  update (construct eps g k0 v epsilon tzero tzero (TScalar f) settled kappa S) F = update (construct eps g k0 v epsilon tzero tzero (tuniform m) settled kappa S) F.
Proof.
  intros He H1 Hf Ha Hl Hs m Hc.
  assert (Nm : is_magnetic (rshape g) tzero tzero (TScalar f) = false).
  { unfold is_magnetic. change tzero with (tuniform (RtoC 0)). rewrite (allclose_uniform (rshape g) (RtoC 0)). cbn [andb]. apply negb_false_iff. change (first (rshape g) (TScalar f)) with m.
    apply all_over_spec. intros p Hp. cbn [elements forallb]. rewrite andb_true_r. unfold close, Rleb. destruct (Rle_dec _ _) as [|N]; [reflexivity|]. exfalso. apply N, Hc, Hp. }
  assert (G : forall h, (forall p, inside (rshape g) p -> (0 <= snd (h p))%R) -> some_gain eps (rshape g) epsilon tzero tzero (TScalar h) = false).
  { intros h Hh. unfold some_gain. rewrite (no_gain_found eps He H1 v (rshape g) epsilon Hf Ha).
    change tzero with (tuniform (RtoC 0)). rewrite !(no_gain_uniform eps _ (RtoC 0) He H1 (Rle_refl 0)). cbn [orb]. apply (no_gain_found eps He H1 true (rshape g) (TScalar h) I). apply absorbs_scalar. exact Hh. }
  assert (Hm : (0 <= snd m)%R).
  { apply Hl. clear - Hs. induction Hs as [|n s Hn Hs IH]; [constructor|]. constructor; [exact Hn|exact IH]. }
  unfold construct, choose. rewrite Nm, not_magnetic. unfold tuniform. rewrite !effective_scalar. unfold transposes. rewrite (G f Hl), (G (fun _ => m)) by (intros; exact Hm). cbn [andb].
  change (first (rshape g) (tinv (TScalar f))) with (1 / m). change (first (rshape g) (tinv (TScalar (fun _ => m)))) with (1 / m).
  set (alpha := (fst settled, increased_bias _ kappa)). set (beta := fst (1 / m)). set (o1 := prepare _ _ _ _ _ _ _ _ (TScalar f) S). set (o2 := prepare _ _ _ _ _ _ _ _ (TScalar (fun _ => m)) S).
  assert (E : o_chiEE o1 = o_chiEE o2).
  { unfold o1, o2. cbn [o_chiEE prepare precondition update_operators o_alpha]. unfold tzero. cbn [tinv tmul tscale].
    assert (K : forall h, tsub epsilon (TScalar (fun p => 0 * (- Ci * (Ci * (1 / h p * 0))))) = epsilon).
    { intros h. destruct epsilon as [q|q]; cbn [tsub]; f_equal; [apply functional_extensionality; intros; ring|].
      apply functional_extensionality. intros i. apply functional_extensionality. intros j. apply functional_extensionality. intros p. ring. }
    rewrite (K f), (K (fun _ => m)). reflexivity. }
  unfold update, chi_op. change (o_magnetic o1) with false. change (o_magnetic o2) with false. cbv iota. rewrite E. reflexivity.
Qed.
