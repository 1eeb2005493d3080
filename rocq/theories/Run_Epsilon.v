(** Proofs about reading and assigning the permittivity of a non-magnetic Solution. *)
From Coq Require Import Reals Lra Lia List Arith ZArith Bool.
Require Import Verif.Base Verif.Cplx Verif.CSum Verif.Field Verif.Fourier_Model Verif.Fourier_Spec Verif.Fourier_Proofs.
Require Import Verif.Vec_Model Verif.Vec_Spec Verif.Vec_Proofs Verif.Solver_Model Verif.Solver_Spec Verif.Solver_Proofs Verif.Solver_Convergence Verif.Solver_Choice.
Require Import Verif.Derived_Model Verif.Derived_Spec Verif.Derived_Tensor Verif.Run_Model Verif.Run_Spec Verif.Run_Proofs Verif.Run_Solve.
Import ListNotations.
Local Open Scope R_scope.
Local Open Scope C_scope.

Lemma tapply_tplus t x F c p : (c < 3)%nat -> tapply (tplus t x) F c p = tapply t F c p + x p * F c p.
Proof. intros Hc. unfold tplus. rewrite tapply_tsub by exact Hc. cbn [tapply]. ring. Qed.

Lemma construct_poses g (v : bool) k0 (alpha : C) beta eps mu S chi E : snd alpha <> 0%R ->
  poses (nonmagnetic_problem g v k0 beta (with_bound eps chi) mu S) (construct g v false k0 alpha beta eps tzero tzero mu S chi E).
Proof. intros Ha. exists alpha. split; [exact Ha|]. split; reflexivity. Qed.

(** What reading epsilon gives. *)
Lemma get_epsilon_is g (v : bool) k0 beta eps mu S (alpha : C) s (F : vfield) c p : snd alpha <> 0%R -> beta <> 0%R -> (c < (if v then 3 else 1)%nat)%nat ->
  prepared (nonmagnetic_problem g v k0 beta eps mu S) alpha s ->
  tapply (get_epsilon s) F c p =
  tapply eps F c p - alpha * RtoC beta * F c p - (match bound_chi s with None => 0 | Some x => x p end) * F c p.
Proof.
  intros Ha Hb Hc (Hw & Ho). unfold get_epsilon. rewrite Ho. cbn [p_grid p_vectorial p_magnetic p_k0 p_beta p_eps p_xi p_zeta p_mu p_source nonmagnetic_problem].
  set (o := prepare _ _ _ _ _ _ _ _ _ _). assert (o_magnetic o = false) as -> by reflexivity.
  assert (o_alpha o = alpha) as Ea by reflexivity. assert (o_beta o = beta) as Eb by reflexivity. rewrite Ea, Eb.
  assert (c < 3)%nat as Hc3 by (destruct v; lia).
  assert (tapply (tscale (im alpha * RtoC beta / Ci) (o_chiEE o)) F c p = tapply eps F c p - alpha * RtoC beta * F c p) as E.
  { rewrite tapply_tscale. unfold o. rewrite prepare_precondition by assumption. rewrite (chiEE_apply _ _ _ _ _ _ _ _ _ _ _ 3) by (lia || assumption).
    field. repeat split; auto with cneq. }
  destruct (bound_chi s) as [x|]; [rewrite tapply_tsub by exact Hc3; cbn [tapply]|]; rewrite E; ring.
Qed.

Lemma perform_bound u s a : bound_chi (perform u s a) = bound_chi s.
Proof.
  destruct a; cbn [perform]; try reflexivity.
  - unfold next. destruct fresh; cbn; destruct (prev_norm s); cbn; try reflexivity;
    (destruct (Req_EM_T _ _); [reflexivity|]); destruct (Rlt_dec _ _); reflexivity.
  - destruct (read_residue_same s) as (r & ->). reflexivity.
Qed.
Lemma history_bound u l s : bound_chi (history u l s) = bound_chi s.
Proof. revert s. induction l as [|a l IH]; intros s; [reflexivity|]. rewrite history_cons, IH. apply perform_bound. Qed.

Lemma get_epsilon_history u g (v : bool) k0 (alpha : C) beta eps mu S chi E l : solvable v g k0 -> snd alpha <> 0%R -> beta <> 0%R -> Forall keeps_material l ->
  let s := history u l (construct g v false k0 alpha beta eps tzero tzero mu S chi E) in
  exists alpha' : C, snd alpha' <> 0%R /\
    forall F c p, (c < (if v then 3 else 1))%nat -> tapply (get_epsilon s) F c p = tapply eps F c p - alpha' * RtoC beta * F c p.
Proof.
  intros Hs Ha Hb Hl s. set (s0 := construct _ _ _ _ _ _ _ _ _ _ _ _ _) in *.
  destruct (poses_history u _ l s0 (conj Hs Hb : well_posed (nonmagnetic_problem g v k0 beta (with_bound eps chi) mu S))
              (construct_poses g v k0 alpha beta eps mu S chi E Ha) Hl) as (alpha' & Ha' & Hp).
  exists alpha'. split; [exact Ha'|]. intros F c p Hc.
  rewrite (get_epsilon_is g v k0 beta (with_bound eps chi) mu _ alpha' s F c p Ha' Hb Hc Hp).
  unfold s. rewrite history_bound. cbn [bound_chi s0 construct]. unfold s0. cbn [bound_chi construct].
  destruct chi as [x|]; cbn [with_bound]; [rewrite tapply_tplus by (destruct v; lia)|]; ring.
Qed.

(** The permeability is recovered, if it is a non-zero constant. *)
Lemma stored_mu_is g (v : bool) (alpha : C) beta eps (m : C) S : snd alpha <> 0%R -> beta <> 0%R -> m <> 0 ->
  stored_mu (prepare g v false alpha beta eps tzero tzero (tuniform m) S) = tuniform m.
Proof.
  intros Ha Hb Hm. unfold stored_mu. rewrite prepare_precondition by assumption. cbn -[im Cdiv RtoC Copp Cinv]. unfold tuniform. f_equal.
  apply FunctionalExtensionality.functional_extensionality. intros p. pose proof Ci_neq.
  assert (im alpha <> 0) by auto with cneq. assert (RtoC beta <> 0) by auto with cneq.
  unfold tfirst. cbn -[im Cdiv RtoC Copp Cinv]. field. repeat split; try assumption.
  - intros E. apply (f_equal fst) in E. cbn in E. lra.
Qed.
Lemma set_epsilon_prepared g (v : bool) k0 beta beta' eps eps' (m : C) S (alpha alpha' : C) s : snd alpha <> 0%R -> snd alpha' <> 0%R -> beta <> 0%R -> m <> 0 ->
  prepared (nonmagnetic_problem g v k0 beta eps (tuniform m) S) alpha s ->
  prepared (nonmagnetic_problem g v k0 beta' (match bound_chi s with None => eps' | Some x => tsub eps' (TScalar x) end) (tuniform m) S) alpha'
    (set_epsilon s eps' false alpha' beta').
Proof.
  intros Ha Ha' Hb Hm (Hw & Ho). split; [exact Hw|].
  cbn [set_epsilon set_prev_norm set_operators operators]. unfold get_source. rewrite Ho.
  cbn [p_grid p_vectorial p_magnetic p_k0 p_beta p_eps p_xi p_zeta p_mu p_source nonmagnetic_problem].
  rewrite stored_mu_is by assumption. f_equal. apply vfield_ext. intros c p. apply source_prepare; assumption.
Qed.
Lemma set_epsilon_poses u g (v : bool) k0 (alpha : C) beta eps eps' (m : C) S E l (alpha' : C) beta' : solvable v g k0 -> snd alpha <> 0%R -> snd alpha' <> 0%R -> beta <> 0%R -> m <> 0 ->
  Forall keeps_material l ->
  let s := history u l (construct g v false k0 alpha beta eps tzero tzero (tuniform m) S None E) in
  poses (nonmagnetic_problem g v k0 beta' eps' (tuniform m) (last_source u k0 l S)) (set_epsilon s eps' false alpha' beta').
Proof.
  intros Hs Ha Ha' Hb Hm Hl s.
  destruct (poses_history u _ l _ (conj Hs Hb : well_posed (nonmagnetic_problem g v k0 beta (with_bound eps None) (tuniform m) S))
              (construct_poses g v k0 alpha beta eps (tuniform m) S None E Ha) Hl) as (alpha1 & Ha1 & Hp).
  exists alpha'. split; [exact Ha'|].
  pose proof (set_epsilon_prepared g v k0 beta beta' _ eps' m _ alpha1 alpha' _ Ha1 Ha' Hb Hm Hp) as H. rewrite history_bound in H. exact H.
Qed.
Lemma set_epsilon_poses_bound u g (v : bool) k0 (alpha : C) beta eps eps' (m : C) S E l x (alpha' : C) beta' : solvable v g k0 -> snd alpha <> 0%R -> snd alpha' <> 0%R -> beta <> 0%R -> m <> 0 ->
  Forall keeps_material l ->
  let s := history u l (construct g v false k0 alpha beta eps tzero tzero (tuniform m) S (Some x) E) in
  poses (nonmagnetic_problem g v k0 beta' (tsub eps' (TScalar x)) (tuniform m) (last_source u k0 l S)) (set_epsilon s eps' false alpha' beta').
Proof.
  intros Hs Ha Ha' Hb Hm Hl s.
  destruct (poses_history u _ l _ (conj Hs Hb : well_posed (nonmagnetic_problem g v k0 beta (with_bound eps (Some x)) (tuniform m) S))
              (construct_poses g v k0 alpha beta eps (tuniform m) S (Some x) E Ha) Hl) as (alpha1 & Ha1 & Hp).
  exists alpha'. split; [exact Ha'|].
  pose proof (set_epsilon_prepared g v k0 beta beta' _ eps' m _ alpha1 alpha' _ Ha1 Ha' Hb Hm Hp) as H. rewrite history_bound in H. exact H.
Qed.

(** No field satisfies the wave equation with and without a change of sign of the bound, except where the bound or the field vanish. *)
Lemma wave_sign (v : bool) g k0 beta eps x E S : solvable v g k0 ->
  wave_equation v g k0 beta (tsub eps (TScalar x)) E S -> wave_equation v g k0 beta (tplus eps x) E S ->
  forall c p, (c < (if v then 3 else 1))%nat -> inside (rshape g) p -> x p * E c p = 0.
Proof.
  intros (_ & Hk & _) H1 H2 c p Hc Hp. specialize (H1 c p Hc Hp). specialize (H2 c p Hc Hp). cbn beta in H1, H2.
  assert (c < 3)%nat as Hc3 by (destruct v; lia).
  rewrite tapply_tsub in H1 by exact Hc3. rewrite tapply_tplus in H2 by exact Hc3. cbn [tapply] in H1.
  assert (RtoC (2 * (k0 * k0)) * (x p * E c p) = 0) as H0.
  { replace (2 * (k0 * k0))%R with (k0 * k0 + k0 * k0)%R by ring. rewrite RtoC_plus. transitivity (S c p - S c p); [rewrite <- H1 at 1; rewrite <- H2|]; ring. }
  assert (RtoC (2 * (k0 * k0)) <> 0) as Hne by (apply RtoC_neq; pose proof (k2_pos k0 Hk); lra).
  transitivity (/ RtoC (2 * (k0 * k0)) * (RtoC (2 * (k0 * k0)) * (x p * E c p))); [field; exact Hne|]. rewrite H0. ring.
Qed.

(** ** The source through any history *)
Lemma source_perform u s a : snd (o_alpha (operators s)) <> 0%R -> o_beta (operators s) <> 0%R -> sane a ->
  snd (o_alpha (operators (perform u s a))) <> 0%R /\ o_beta (operators (perform u s a)) <> 0%R /\
  forall c p, get_source (perform u s a) c p = assigned_source u (wavenumber s) (get_source s) a c p.
Proof.
  intros Ha Hb Hs. assert (im (o_alpha (operators s)) <> 0) as Hi by auto with cneq. assert (RtoC (o_beta (operators s)) <> 0) as Hbb by auto with cneq.
  pose proof Ci_neq as HC.
  destruct a; cbn [perform assigned_source sane] in *; try (split; [exact Ha|]; split; [exact Hb|]; intros; reflexivity).
  - unfold next. set (s0 := set_residue _ None).
    assert (operators s0 = operators s) as E1 by (unfold s0; destruct fresh; reflexivity).
    assert (snd (o_alpha (operators s0)) <> 0%R /\ o_beta (operators s0) <> 0%R /\ forall c p, get_source s0 c p = get_source s c p) as H0
      by (unfold get_source; rewrite E1; repeat split; assumption).
    destruct (prev_norm s0) as [q|]; [|exact H0]. destruct (Req_EM_T q 0); [exact H0|]. destruct (Rlt_dec _ 1); [exact H0|].
    cbn [fst operators set_operators]. rewrite E1. cbn [update_operators o_alpha o_beta snd]. split; [lra|]. split; [exact Hb|].
    intros c p. unfold get_source, source_distribution. cbn [operators set_operators].
    cbn -[im RtoC Cdiv]. assert (im (fst (o_alpha (operators s)), (15 / 10 * snd (o_alpha (operators s)))%R) <> 0) by (apply im_neq; cbn; lra).
    field. repeat split; assumption.
  - split; [exact Ha|]. split; [exact Hb|]. intros c p. unfold get_source, source_distribution. cbn -[im RtoC Cdiv]. field. repeat split; assumption.
  - split; [exact Ha|]. split; [exact Hb|]. intros c p. unfold get_source, source_distribution. cbn [perform set_j set_source set_prev_norm set_operators operators with_source o_source o_alpha o_beta].
    unfold source_of_current, angular_frequency. rewrite !RtoC_mult. field. repeat split; assumption.
  - destruct Hs as (Hs1 & Hs2). split; [exact Hs1|]. split; [exact Hs2|]. intros c p. unfold get_source. cbn [operators set_epsilon set_prev_norm set_operators].
    apply source_prepare; assumption.
  - destruct (read_residue_same s) as (r & ->). split; [exact Ha|]. split; [exact Hb|]. intros; reflexivity.
Qed.
Lemma assigned_ext u k0 F G a c p : (forall c p, F c p = G c p) -> assigned_source u k0 F a c p = assigned_source u k0 G a c p.
Proof. intros H. destruct a; cbn [assigned_source]; auto. Qed.
Lemma source_any_history u l : forall s, snd (o_alpha (operators s)) <> 0%R -> o_beta (operators s) <> 0%R -> Forall sane l ->
  forall c p, get_source (history u l s) c p = last_source u (wavenumber s) l (get_source s) c p.
Proof.
  induction l as [|a l IH]; intros s Ha Hb Hl c p; [reflexivity|]. inversion Hl as [|? ? Hs Hl']; subst.
  destruct (source_perform u s a Ha Hb Hs) as (Ha' & Hb' & E). rewrite history_cons, (IH _ Ha' Hb' Hl'). rewrite perform_wavenumber.
  assert (get_source (perform u s a) = assigned_source u (wavenumber s) (get_source s) a) as -> by (apply vfield_ext; exact E). reflexivity.
Qed.
Lemma construct_alpha g v m k0 alpha beta eps xi zeta mu S chi E : o_alpha (operators (construct g v m k0 alpha beta eps xi zeta mu S chi E)) = alpha.
Proof. reflexivity. Qed.
Lemma construct_source g v m k0 (alpha : C) beta eps xi zeta mu S chi E : snd alpha <> 0%R -> beta <> 0%R ->
  get_source (construct g v m k0 alpha beta eps xi zeta mu S chi E) = S.
Proof. intros Ha Hb. apply vfield_ext. intros c p. unfold get_source. cbn [operators construct]. apply source_prepare; assumption. Qed.
