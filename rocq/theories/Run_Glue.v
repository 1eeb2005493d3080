(** Proofs that combine the others about the history of a Solution. *)
From Coq Require Import Reals Lra Lia List Arith ZArith Bool.
Require Import Verif.Base Verif.Cplx Verif.CSum Verif.Field Verif.Fourier_Model Verif.Fourier_Spec Verif.Fourier_Proofs.
Require Import Verif.Vec_Model Verif.Vec_Spec Verif.Vec_Proofs Verif.Solver_Model Verif.Solver_Spec Verif.Solver_Proofs Verif.Solver_Convergence Verif.Solver_Limit Verif.Solver_Choice.
Require Import Verif.Derived_Model Verif.Derived_Spec Verif.Derived_Tensor Verif.Run_Model Verif.Run_Spec Verif.Run_Proofs Verif.Run_Solve Verif.Run_Zero Verif.Run_Epsilon Verif.Run_Converge.
Import ListNotations.
Local Open Scope R_scope.
Local Open Scope C_scope.

Lemma norm_public s x : wavenumber s <> 0%R -> previous_update_norm s = Fin x -> prev_norm s = Fin (x * (wavenumber s * wavenumber s)).
Proof.
  intros Hk. unfold previous_update_norm. destruct (prev_norm s) as [y|]; [|discriminate]. intros [= <-]. f_equal. field. exact Hk.
Qed.
Lemma set_get_E s : wavenumber s <> 0%R -> set_E s (get_E s) = set_prev_norm s Inf.
Proof.
  intros Hk. unfold set_E. assert ((fun c p => get_E s c p * RtoC (wavenumber s * wavenumber s)) = field s) as ->.
  { apply vfield_ext. intros c p. unfold get_E, electric_field. field. intros E. apply (f_equal fst) in E. cbn in E. nra. }
  destruct s; reflexivity.
Qed.
Lemma attempt_is s : wavenumber s <> 0%R -> attempt s = (norm (operators s) (update (operators s) (field s)) / (wavenumber s * wavenumber s))%R.
Proof.
  intros Hk. unfold attempt. rewrite set_get_E by exact Hk. rewrite (next_accept (set_prev_norm s Inf) true (or_introl eq_refl)). cbn [fst].
  apply change_accept; [exact Hk|reflexivity|reflexivity].
Qed.
Lemma next_effect s fresh : wavenumber s <> 0%R -> norm_ok s ->
  let (s', exc) := next fresh s in
  iteration s' = ((if fresh then 0 else iteration s) + 1)%Z /\
  match exc with
  | Some e => e = ZeroDivisionError /\ previous_update_norm s = Fin 0 /\ get_E s' = get_E s /\ operators s' = operators s
  | None =>
      (get_E s' = get_E s /\ (exists x, previous_update_norm s = Fin x /\ previous_update_norm s' = Fin x /\ x <= attempt s)%R /\
       o_alpha (operators s') = (fst (o_alpha (operators s)), 15 / 10 * snd (o_alpha (operators s)))%R) \/
      (operators s' = operators s /\ change s s' = attempt s /\ previous_update_norm s' = Fin (attempt s) /\
       forall x, previous_update_norm s = Fin x -> (attempt s < x)%R)
  end.
Proof.
  intros Hk Hn. pose proof (k2_pos _ Hk) as Hp. pose proof (attempt_is s Hk) as EA.
  pose proof (next_iteration s fresh) as Hi. destruct (next_cases s Hn) as [Hc|[(q & H1 & H2 & H3)|Hc]].
  - rewrite (next_accept s fresh Hc) in *. split; [exact Hi|]. right. split; [reflexivity|].
    set (s' := set_prev_norm _ _).
    assert (change s s' = attempt s) as E by (rewrite EA; apply change_accept; [exact Hk|reflexivity|reflexivity]).
    split; [exact E|]. split; [rewrite EA; reflexivity|]. intros x Hx. apply (norm_public s x Hk) in Hx.
    destruct Hc as [Hc|(q & Hc & H0 & Hlt)]; rewrite Hc in Hx; [discriminate|]. injection Hx as Hx. rewrite EA.
    apply Rmult_lt_reg_r with (wavenumber s * wavenumber s)%R; [exact Hp|]. unfold Rdiv. rewrite Rmult_assoc, Rinv_l by lra. lra.
  - rewrite (next_reject s fresh q H1 H2 H3) in *. split; [exact Hi|]. left. split; [reflexivity|]. split; [|reflexivity].
    exists (q / (wavenumber s * wavenumber s))%R. unfold previous_update_norm. cbn [prev_norm wavenumber set_operators set_residue set_iteration set_prev_norm]. rewrite H1.
    split; [reflexivity|]. split; [reflexivity|]. rewrite EA. apply Rmult_le_compat_r; [|lra]. apply Rlt_le, Rinv_0_lt_compat, Hp.
  - rewrite (next_raise s fresh Hc) in *. split; [exact Hi|]. repeat split. unfold previous_update_norm. rewrite Hc. f_equal. unfold Rdiv. ring.
Qed.
Lemma next_first s fresh : wavenumber s <> 0%R -> prev_norm s = Inf ->
  let (s', exc) := next fresh s in exc = None /\ operators s' = operators s /\ previous_update_norm s' = Fin (change s s').
Proof.
  intros Hk Hp. rewrite (next_accept s fresh (or_introl Hp)). split; [reflexivity|]. split; [reflexivity|]. set (s' := set_prev_norm _ _).
  rewrite (change_accept s (update (operators s) (field s)) Hk s' eq_refl eq_refl). reflexivity.
Qed.
Section Fixed.
  Variables (v : bool) (g : raster) (k0 : R) (alpha : C) (beta : R) (eps mu : tensor) (S : vfield) (s : solution).
  Hypothesis Hs : solvable v g k0.
  Hypothesis Ha : snd alpha <> 0%R.
  Hypothesis Hb : beta <> 0%R.
  Hypothesis Hf : fits v eps.
  Hypothesis Hm : fits v mu.
  Hypothesis Hw : wavenumber s = k0.
  Hypothesis Ho : operators s = prepare (scaled k0 g) v false alpha beta eps tzero tzero mu S.
  Lemma fixed_stays : wave_equation v g k0 beta eps (get_E s) S -> change s (fst (next true (set_E s (get_E s)))) = 0%R.
  Proof.
    intros HE. pose proof Hs as (_ & Hk & _). rewrite set_get_E by (rewrite Hw; exact Hk).
    rewrite (next_accept (set_prev_norm s Inf) true (or_introl eq_refl)). cbn [fst].
    rewrite (change_accept s (update (operators s) (field s))); [|rewrite Hw; exact Hk|reflexivity|reflexivity].
    assert (norm (operators s) (update (operators s) (field s)) = 0%R) as ->; [|unfold Rdiv; ring].
    rewrite <- (norm_zero (operators s)). apply norm_ext. rewrite Ho.
    assert (field s = (fun c p => RtoC (k0 * k0) * get_E s c p)) as ->.
    { apply vfield_ext. intros c p. unfold get_E, electric_field. rewrite Hw. field. apply k2_neq. exact Hk. }
    apply (update_zero_of_wave v g k0 alpha beta eps mu (get_E s) S Hs Ha Hb Hf Hm HE).
  Qed.
  Lemma stays_fixed F : injective (rshape g) (o_chiEE (operators s)) ->
    change (set_E s F) (fst (next true (set_E s F))) = 0%R -> wave_equation v g k0 beta eps F S.
  Proof.
    intros Hi HC. pose proof Hs as (_ & Hk & _). assert (wavenumber s <> 0%R) as Hk' by (rewrite Hw; exact Hk).
    rewrite (next_accept (set_E s F) true (or_introl eq_refl)) in HC. cbn [fst] in HC.
    rewrite (change_accept (set_E s F) (update (operators s) (field (set_E s F)))) in HC; [|exact Hk'|reflexivity|reflexivity].
    assert (norm (operators s) (update (operators s) (field (set_E s F))) = 0%R) as HN.
    { cbn [operators set_E set_prev_norm set_field wavenumber] in HC. rewrite Hw in HC. pose proof (k2_pos k0 Hk).
      apply (Rmult_eq_compat_r (k0 * k0)) in HC. unfold Rdiv in HC. rewrite Rmult_assoc, Rinv_l in HC by lra. rewrite Rmult_1_r in HC. lra. }
    apply norm_zero_agree in HN. rewrite Ho in HN, Hi.
    apply (wave_of_update_zero v g k0 alpha beta eps mu F S Hs Ha Hb Hf Hm Hi).
    assert (field (set_E s F) = (fun c p => RtoC (k0 * k0) * F c p)) as EF.
    { apply vfield_ext. intros c p. cbn [field set_E set_prev_norm set_field]. rewrite Hw. ring. }
    rewrite EF in HN. exact HN.
  Qed.
End Fixed.

Lemma field_zero g (v m : bool) k0 (alpha : C) beta eps xi zeta mu S chi : forall c p, field (construct g v m k0 alpha beta eps xi zeta mu S chi (fun _ _ => 0)) c p = 0.
Proof. intros c p. cbn [field construct]. ring. Qed.
Lemma first_nonzero (v : bool) g k0 beta e mu (S : vfield) alpha_r kappa c p :
  solvable v g k0 -> fits v mu -> (0 < beta)%R -> (c < (if v then 3 else 1))%nat -> inside (rshape g) p -> S c p <> 0 ->
  let alpha := choose_alpha g e beta alpha_r false kappa in
  let s := construct g v false k0 alpha beta (TScalar e) tzero tzero mu S None (fun _ _ => 0) in
  norm (operators s) (update (operators s) (field s)) <> 0%R.
Proof.
  intros Hs Hm Hb Hc Hp HS alpha s HN. unfold s in HN. clear s. apply norm_zero_agree in HN. apply HS.
  destruct (choose_alpha_bias g e beta alpha_r kappa Hb) as (rho & Hr & Ha & Hfst & Hd). fold alpha in Ha, Hfst, Hd.
  assert (deviates (if v then 3 else 1) (rshape g) (TScalar e) beta (fst alpha) (rho * snd alpha)) as Hd' by (rewrite Hfst; apply Hd).
  pose proof (proj1 (si_fixed v g k0 alpha beta (TScalar e) mu S Hs I Hm Ha Hb rho Hd' Hr _) HN) as HE.
  specialize (HE c p Hc Hp). cbn beta in HE. rewrite <- HE.
  assert (electric_field k0 (field (construct g v false k0 alpha beta (TScalar e) tzero tzero mu S None (fun _ _ => 0))) = none) as ->.
  { apply none_is. intros c' p'. unfold electric_field. rewrite field_zero. unfold Cdiv. ring. }
  rewrite tapply_none.
  assert (curl_curl_op v g none c p = 0) as ->; [|ring].
  unfold curl_curl_op. destruct v.
  - rewrite (none_is (curl g 3 none)) by apply curl_none. apply curl_none.
  - unfold laplacian. rewrite convolve_none; [ring|]. intros F HF c' k. rewrite HF. ring.
Qed.
Lemma first_step (v : bool) g k0 beta e mu (S : vfield) alpha_r kappa c p :
  solvable v g k0 -> fits v mu -> (0 < beta)%R -> (c < (if v then 3 else 1))%nat -> inside (rshape g) p -> S c p <> 0 ->
  let alpha := choose_alpha g e beta alpha_r false kappa in
  let s := construct g v false k0 alpha beta (TScalar e) tzero tzero mu S None (fun _ _ => 0) in
  exists s1, next true s = (s1, None) /\ snd (read_residue s1) = Ok (Fin 1).
Proof.
  intros Hs Hm Hb Hc Hp HS alpha s. pose proof Hs as (_ & Hk & _). pose proof (next_accept s true (or_introl eq_refl)) as E.
  eexists. split; [exact E|]. apply (first_residue s true _ Hk (field_zero _ _ _ _ _ _ _ _ _ _ _ _) eq_refl (first_nonzero v g k0 beta e mu S alpha_r kappa c p Hs Hm Hb Hc Hp HS) E).
Qed.
Lemma maxiter_one (W : Type) (v : bool) g k0 beta e mu (S : vfield) alpha_r kappa c p rtol maxiter (w : W) :
  solvable v g k0 -> fits v mu -> (0 < beta)%R -> (c < (if v then 3 else 1))%nat -> inside (rshape g) p -> S c p <> 0 ->
  let alpha := choose_alpha g e beta alpha_r false kappa in
  solve_method 1 (construct g v false k0 alpha beta (TScalar e) tzero tzero mu S None (fun _ _ => 0)) Missing rtol maxiter w = None.
Proof.
  intros Hs Hm Hb Hc Hp HS alpha. pose proof Hs as (_ & Hk & _). apply missing_ignores; [exact Hk|apply field_zero|reflexivity|].
  apply (first_nonzero v g k0 beta e mu S alpha_r kappa c p Hs Hm Hb Hc Hp HS).
Qed.
Lemma maxiter_zero (W : Type) (s s' : solution) (rtol : R) (w w' : W) fuel :
  solve_method fuel s NoneGiven rtol (Some 0%Z) w = Some (Returned w' s') -> iteration s' = 1%Z.
Proof.
  unfold solve_method. destruct fuel as [|fuel]; [discriminate|]. cbn [loop chosen].
  pose proof (next_iteration s true) as Hi. destruct (next true s) as [s1 [e|]]; [discriminate|]. cbn [fst] in Hi.
  unfold limits. rewrite Hi. cbn. intros [= <- <-]. exact Hi.
Qed.

Lemma last_source_fixed u k0 l S : Forall (fun a => match a with OSetSource _ | OSetJ _ => False | _ => True end) l -> last_source u k0 l S = S.
Proof.
  revert S. induction l as [|a l IH]; intros S H; [reflexivity|]. inversion H as [|? ? Ha Hl]; subst. unfold last_source. cbn [fold_left].
  replace (assigned_source u k0 S a) with S by (destruct a; try reflexivity; contradiction). apply (IH S Hl).
Qed.
Lemma j_history u g (v magnetic : bool) k0 (alpha : C) beta eps xi zeta mu S chi E0 l J l' :
  physical u -> k0 <> 0%R -> snd alpha <> 0%R -> beta <> 0%R -> Forall sane (l ++ OSetJ J :: l') ->
  Forall (fun a => match a with OSetSource _ | OSetJ _ => False | _ => True end) l' ->
  forall c p, get_j u (history u (l ++ OSetJ J :: l') (construct g v magnetic k0 alpha beta eps xi zeta mu S chi E0)) c p = J c p.
Proof.
  intros Hu Hk Ha Hb Hl Hl' c p. set (s0 := construct _ _ _ _ _ _ _ _ _ _ _ _ _).
  pose proof (source_any_history u (l ++ OSetJ J :: l') s0 Ha Hb Hl c p) as E. change (wavenumber s0) with k0 in E.
  unfold last_source in E. rewrite fold_left_app in E. cbn [fold_left assigned_source] in E.
  match type of E with _ = fold_left _ _ ?x _ _ => pose proof (last_source_fixed u k0 l' x Hl') as E2 end.
  unfold last_source in E2. rewrite E2 in E. clear E2.
  unfold get_j, current_density. unfold get_source in E. rewrite E. rewrite history_wavenumber. change (wavenumber s0) with k0.
  destruct Hu as (H1 & H2 & H3). unfold angular_frequency. rewrite !RtoC_mult.
  assert (RtoC (mu_0 u) <> 0) by (apply RtoC_neq; lra). assert (RtoC (c_light u) <> 0) by (apply RtoC_neq; lra).
  pose proof Ci_neq. field. repeat split; auto with cneq.
  intros Hc. apply H4. transitivity (- - Ci); [ring|]. rewrite Hc. ring.
Qed.

Lemma get_epsilon_wrong u g (v : bool) k0 (alpha : C) beta eps mu S chi E l : solvable v g k0 -> snd alpha <> 0%R -> beta <> 0%R -> Forall keeps_material l ->
  let s := history u l (construct g v false k0 alpha beta eps tzero tzero mu S chi E) in
  forall (F : vfield) c p, (c < (if v then 3 else 1))%nat -> F c p <> 0 -> tapply (get_epsilon s) F c p <> tapply eps F c p.
Proof.
  intros Hs Ha Hb Hl s F c p Hc HF. destruct (get_epsilon_history u g v k0 alpha beta eps mu S chi E l Hs Ha Hb Hl) as (alpha' & Ha' & HE).
  unfold s. rewrite (HE F c p Hc). intros EQ.
  assert (alpha' * RtoC beta * F c p = 0) as Hz.
  { transitivity (tapply eps F c p - (tapply eps F c p - alpha' * RtoC beta * F c p)); [ring|]. rewrite EQ. ring. }
  assert (alpha' <> 0) by (apply alpha_neq; exact Ha'). assert (RtoC beta <> 0) by auto with cneq.
  apply HF. transitivity (/ (alpha' * RtoC beta) * (alpha' * RtoC beta * F c p)); [field; split; assumption|]. rewrite Hz. ring.
Qed.
Lemma set_epsilon_as_construct u g (v : bool) k0 (alpha : C) beta eps eps' (m : C) S E l (alpha' : C) beta' :
  solvable v g k0 -> snd alpha <> 0%R -> snd alpha' <> 0%R -> beta <> 0%R -> m <> 0 -> Forall keeps_material l ->
  let s := history u l (construct g v false k0 alpha beta eps tzero tzero (tuniform m) S None E) in
  operators (set_epsilon s eps' false alpha' beta') =
  operators (construct g v false k0 alpha' beta' eps' tzero tzero (tuniform m) (last_source u k0 l S) None E).
Proof.
  intros Hs Ha Ha' Hb Hm Hl s.
  destruct (poses_history u _ l _ (conj Hs Hb : well_posed (nonmagnetic_problem g v k0 beta (with_bound eps None) (tuniform m) S))
              (construct_poses g v k0 alpha beta eps (tuniform m) S None E Ha) Hl) as (alpha1 & Ha1 & Hp).
  pose proof (set_epsilon_prepared g v k0 beta beta' _ eps' m _ alpha1 alpha' _ Ha1 Ha' Hb Hm Hp) as (_ & H). rewrite history_bound in H. exact H.
Qed.
Lemma set_epsilon_wrong u g (v : bool) k0 (alpha : C) beta eps (m : C) S E l (x e' : sfield) alpha_r kappa (F : vfield) :
  solvable v g k0 -> snd alpha <> 0%R -> (0 < beta)%R -> m <> 0 -> Forall keeps_material l ->
  let s := history u l (construct g v false k0 alpha beta eps tzero tzero (tuniform m) S (Some x) E) in
  let alpha' := choose_alpha g (fun p => e' p - x p) beta alpha_r false kappa in
  let s' := set_E (set_epsilon s (TScalar e') false alpha' beta) F in
  change s' (fst (next true s')) = 0%R ->
  wave_equation v g k0 beta (TScalar (fun p => e' p + x p)) F (last_source u k0 l S) ->
  forall c p, (c < (if v then 3 else 1))%nat -> inside (rshape g) p -> x p * F c p = 0.
Proof.
  intros Hs Ha Hb Hm Hl s alpha' s' HC HE.
  destruct (choose_alpha_bias g (fun p => e' p - x p) beta alpha_r kappa Hb) as (rho & Hr & Ha' & Hfst & Hd). fold alpha' in Ha', Hfst, Hd.
  destruct (poses_history u _ l _ (conj Hs (Rgt_not_eq _ _ Hb) : well_posed (nonmagnetic_problem g v k0 beta (with_bound eps (Some x)) (tuniform m) S))
              (construct_poses g v k0 alpha beta eps (tuniform m) S (Some x) E Ha) Hl) as (alpha1 & Ha1 & Hp).
  pose proof (set_epsilon_prepared g v k0 beta beta _ (TScalar e') m _ alpha1 alpha' _ Ha1 (Rgt_not_eq _ _ Ha') (Rgt_not_eq _ _ Hb) Hm Hp) as (HPw & HPo).
  rewrite history_bound in HPo. fold s in HPw, HPo.
  cbn [nonmagnetic_problem p_grid p_vectorial p_magnetic p_k0 p_beta p_eps p_xi p_zeta p_mu p_source with_p_source construct bound_chi tsub] in HPw, HPo.
  assert (deviates (if v then 3 else 1) (rshape g) (TScalar (fun p => e' p - x p)) beta (fst alpha') (rho * snd alpha')) as Hd' by (rewrite Hfst; apply Hd).
  apply (wave_sign v g k0 beta (TScalar e') x F (last_source u k0 l S) Hs).
  - apply (stays_fixed v g k0 alpha' beta (TScalar (fun p => e' p - x p)) (tuniform m) (last_source u k0 l S) (set_epsilon s (TScalar e') false alpha' beta) Hs (Rgt_not_eq _ _ Ha') (Rgt_not_eq _ _ Hb) I I HPw HPo F).
    + rewrite HPo. apply (chi_injective v (scaled k0 g) alpha' beta _ (tuniform m) _ rho); try assumption; try exact I. apply (si_ndim v g k0 Hs).
    + exact HC.
  - unfold tplus. cbn [tsub]. assert ((fun p => e' p - - x p) = (fun p => e' p + x p)) as -> by (apply FunctionalExtensionality.functional_extensionality; intros q; ring).
    exact HE.
Qed.

Lemma rest_construct (W : Type) g (v magnetic : bool) k0 (alpha : C) beta eps xi zeta mu chi (cb : callback_arg W) rtol maxiter (w : W) fuel :
  (0 <= rtol)%R -> match cb with Given _ => False | _ => True end ->
  exists s', solve_method (Datatypes.S fuel) (construct g v magnetic k0 alpha beta eps xi zeta mu (fun _ _ => 0) chi (fun _ _ => 0)) cb rtol maxiter w = Some (Returned w s') /\
    iteration s' = 1%Z /\ (forall c p, get_E s' c p = 0) /\ snd (read_residue s') = Ok (Fin 0).
Proof.
  intros Hr Hcb. destruct (rest_solve (construct g v magnetic k0 alpha beta eps xi zeta mu (fun _ _ => 0) chi (fun _ _ => 0)) cb rtol maxiter w fuel) as (s' & H1 & H2 & H3 & H4 & _); try assumption.
  - split; [apply field_zero|]. intros c p. cbn -[Cdiv RtoC Cmult im]. ring.
  - reflexivity.
  - exists s'. auto.
Qed.
Lemma rest_again (W : Type) g (v magnetic : bool) k0 (alpha : C) beta eps xi zeta mu chi rtol maxiter (w : W) fuel fresh s' :
  (0 <= rtol)%R ->
  solve_method (Datatypes.S fuel) (construct g v magnetic k0 alpha beta eps xi zeta mu (fun _ _ => 0) chi (fun _ _ => 0)) Missing rtol maxiter w = Some (Returned w s') ->
  snd (next fresh s') = Some ZeroDivisionError.
Proof.
  intros Hr HS. destruct (rest_solve (construct g v magnetic k0 alpha beta eps xi zeta mu (fun _ _ => 0) chi (fun _ _ => 0)) Missing rtol maxiter w fuel) as (s2 & H1 & _ & _ & _ & H5); try assumption.
  - split; [apply field_zero|]. intros c p. cbn -[Cdiv RtoC Cmult im]. ring.
  - reflexivity.
  - exact I.
  - rewrite H1 in HS. injection HS as <-. apply (rest_raises s2 fresh H5).
Qed.

Lemma ended_limit o start k0 maxiter rtol x : ended o start k0 maxiter rtol x -> operators x = o /\ limit_reached maxiter rtol x.
Proof. intros (m & (_ & Ho & _) & H). split; [exact Ho|]. destruct H as [H|(_ & H)]; [left; exact H|right; exact H]. Qed.
Lemma solve_ends_general (W : Type) (v : bool) g k0 (alpha : C) beta eps mu S rho E rtol maxiter (w : W) :
  solvable v g k0 -> fits v eps -> fits v mu -> (0 < snd alpha)%R -> (0 < beta)%R ->
  let n := (if v then 3 else 1)%nat in
  absorbs n (rshape g) eps 0 -> deviates n (rshape g) eps beta (fst alpha) (rho * snd alpha) -> (0 <= rho < 1)%R ->
  wave_equation v g k0 beta eps E S -> (0 < rtol)%R ->
  let s := construct g v false k0 alpha beta eps tzero tzero mu S None (fun _ _ => 0) in
  exists fuel s', solve_method fuel s NoneGiven rtol maxiter w = Some (Returned w s') /\
    operators s' = operators s /\ limit_reached maxiter rtol s'.
Proof.
  intros Hs Hf Hm Ha Hb n Hl Hd Hr HE Ht s.
  destruct (si_solve_ends v g k0 alpha beta eps mu S Hs Hf Hm Ha Hb 0 rho Hl Hd Hr s eq_refl eq_refl (field_zero _ _ _ _ _ _ _ _ _ _ _ _) eq_refl E maxiter rtol w (Rle_refl 0) HE Ht)
    as (fuel & x & H1 & H2).
  exists fuel, x. split; [exact H1|]. apply ended_limit in H2. exact H2.
Qed.
Lemma solve_ends_isotropic (W : Type) (v : bool) g k0 beta e mu S alpha_r kappa E rtol maxiter (w : W) :
  solvable v g k0 -> fits v mu -> (0 < beta)%R -> (forall p, inside (rshape g) p -> (0 <= snd (e p))%R) ->
  wave_equation v g k0 beta (TScalar e) E S -> (0 < rtol)%R ->
  let alpha := choose_alpha g e beta alpha_r false kappa in
  let s := construct g v false k0 alpha beta (TScalar e) tzero tzero mu S None (fun _ _ => 0) in
  exists fuel s', solve_method fuel s NoneGiven rtol maxiter w = Some (Returned w s') /\
    operators s' = operators s /\ limit_reached maxiter rtol s'.
Proof.
  intros Hs Hm Hb He HE Ht alpha s. destruct (choose_alpha_bias g e beta alpha_r kappa Hb) as (rho & Hr & Ha & Hfst & Hd).
  apply (solve_ends_general W v g k0 alpha beta (TScalar e) mu S rho E rtol maxiter w); try assumption; try exact I.
  - apply absorbs_scalar. exact He.
  - unfold alpha at 1. rewrite Hfst. apply Hd.
Qed.
Lemma solve_accurate_isotropic (W : Type) (v : bool) g k0 beta e mu S alpha_r kappa loss (w : W) :
  solvable v g k0 -> fits v mu -> (0 < beta)%R -> (0 < loss)%R -> (forall p, inside (rshape g) p -> (loss <= snd (e p))%R) ->
  let alpha := choose_alpha g e beta alpha_r false kappa in
  let s := construct g v false k0 alpha beta (TScalar e) tzero tzero mu S None (fun _ _ => 0) in
  exists E K, wave_equation v g k0 beta (TScalar e) E S /\
    (forall E', wave_equation v g k0 beta (TScalar e) E' S -> vagree (if v then 3 else 1) (rshape g) E' E) /\
    forall rtol, (0 < rtol)%R -> exists fuel s', solve_method fuel s NoneGiven rtol None w = Some (Returned w s') /\
      (magnitude s' (fun c p => get_E s' c p - E c p)%C <= K * rtol * magnitude s' (get_E s'))%R.
Proof.
  intros Hs Hm Hb Hl He alpha s. destruct (choose_alpha_bias g e beta alpha_r kappa Hb) as (rho & Hr & Ha & Hfst & Hd).
  assert (deviates (if v then 3 else 1) (rshape g) (TScalar e) beta (fst alpha) (rho * snd alpha)) as Hd' by (unfold alpha at 1; rewrite Hfst; apply Hd).
  exact (si_solve_accurate v g k0 alpha beta (TScalar e) mu S Hs I Hm Ha Hb loss rho (absorbs_scalar _ _ _ _ He) Hd' Hr s eq_refl eq_refl (field_zero _ _ _ _ _ _ _ _ _ _ _ _) eq_refl w Hl).
Qed.
(** A callback that keeps a log and stops after the third call. *)
Lemma three_calls (s : solution) rtol maxiter (w : list Z) :
  let cb : callback (list Z) := fun w s => ((iteration s :: w), s, Ok (Z.ltb (iteration s) 3)) in
  exists s', solve_method 3 s (Given cb) rtol maxiter w = Some s'.
Proof.
  intros cb. unfold solve_method. cbn [loop chosen].
  pose proof (next_iteration s true) as H1. destruct (next true s) as [s1 [e1|]]; [eexists; reflexivity|]. cbn [fst] in H1. cbn [cb]. rewrite H1. cbn -[next loop].
  pose proof (next_iteration s1 false) as H2. cbn [loop]. destruct (next false s1) as [s2 [e2|]]; [eexists; reflexivity|]. cbn [fst] in H2. cbn [cb]. rewrite H2, H1. cbn -[next loop].
  pose proof (next_iteration s2 false) as H3. destruct (next false s2) as [s3 [e3|]]; [eexists; reflexivity|]. cbn [fst] in H3. cbn [cb]. rewrite H3, H2, H1. cbn -[next loop].
  eexists; reflexivity.
Qed.
