(** Proofs about the scattering matrix. *)
From Coq Require Import Reals List Arith ZArith Bool Lia Lra FunctionalExtensionality.
Require Import Verif.Base Verif.Cplx Verif.CSum Verif.Field Verif.Fourier_Model Verif.Fourier_Spec Verif.Fourier_Proofs.
Require Import Verif.Vec_Model Verif.Vec_Spec Verif.Vec_Proofs Verif.Solver_Model Verif.Solver_Spec Verif.Solver_Proofs Verif.Solver_Convergence Verif.Solver_Limit Verif.Solver_Choice.
Require Import Verif.Derived_Model Verif.Derived_Spec Verif.Run_Model Verif.Run_Spec Verif.Run_Proofs Verif.Run_Solve Verif.Run_Zero Verif.Run_Converge.
Require Import Verif.Symmetry_Spec Verif.Symmetry_Limit.
Require Import Verif.Matrix_Model Verif.Matrix_Cache Verif.Modes_Model Verif.Modes_Spec Verif.Modes_Proofs Verif.Modes_Fields Verif.Scatter_Model Verif.Scatter_Spec.
Import ListNotations.
Local Open Scope R_scope.
Local Open Scope C_scope.

(** ** History *)
Lemma same_with_source x y S : same_material x y -> with_source (operators x) S = with_source (operators y) S.
Proof.
  intros (_ & _ & H1 & H2 & H3 & H4 & H5 & H6 & H7 & H8 & H9). unfold with_source. rewrite H1, H2, H3, H4, H5, H6, H7, H8, H9. reflexivity.
Qed.
Lemma next_fresh (x y : solution) : Run_Model.wavenumber x = Run_Model.wavenumber y -> bound_chi x = bound_chi y -> operators x = operators y ->
  field x = field y -> prev_norm x = prev_norm y -> next true x = next true y.
Proof.
  destruct x as [a b c e f i r], y as [a' b' c' e' f' i' r']. cbn [Run_Model.wavenumber bound_chi operators field prev_norm]. intros -> -> -> -> ->. reflexivity.
Qed.
Lemma same_next x y S : same_material x y ->
  next true (set_E (set_source x S) (fun _ _ => 0)) = next true (set_E (set_source y S) (fun _ _ => 0)).
Proof.
  intros H. pose proof (same_with_source x y S H) as Ho. destruct H as (Hw & Hb & _).
  apply next_fresh; [exact Hw|exact Hb|exact Ho| |reflexivity].
  change (field (set_E (set_source x S) (fun _ _ => 0))) with (fun (c : nat) (p : list nat) => 0 * RtoC (Run_Model.wavenumber x * Run_Model.wavenumber x)). rewrite Hw. reflexivity.
Qed.
Lemma same_source2detfield fuel maxiter rtol x y S : same_material x y ->
  source2detfield fuel maxiter rtol x S = source2detfield fuel maxiter rtol y S.
Proof. intros H. unfold source2detfield. destruct fuel; [reflexivity|]. cbn [loop]. rewrite (same_next x y S H). reflexivity. Qed.
Lemma column_same fuel maxiter rtol d x y (v : vec) : same_material x y -> (exists i, (i < n_elements (optics_of d))%nat /\ v i <> RtoC 0) ->
  column fuel maxiter rtol d x v = column fuel maxiter rtol d y v.
Proof.
  intros H (i & Hi & Hv). unfold column. destruct (length (non_zeros (n_elements (optics_of d)) v) =? 0)%nat eqn:E.
  - exfalso. apply Nat.eqb_eq, length_zero_iff_nil in E. assert (In i (non_zeros (n_elements (optics_of d)) v)) as HI by (apply (proj2 (non_zeros_in _ _ _)); exact (conj Hi Hv)). rewrite E in HI. destruct HI.
  - rewrite (same_source2detfield fuel maxiter rtol x y _ H). reflexivity.
Qed.
Lemma made_same d alpha beta eps mu chi x y : made_of d alpha beta eps mu chi x -> made_of d alpha beta eps mu chi y -> same_material x y.
Proof.
  intros (Wx & Bx & Sx & Hx) (Wy & By & Sy & Hy). unfold same_material. rewrite Wx, Wy, Bx, By, Hx, Hy.
  repeat (refine (conj eq_refl _)). reflexivity.
Qed.
Lemma next_bound f x : bound_chi (fst (next f x)) = bound_chi x.
Proof. unfold next. destruct f; cbn; (destruct (prev_norm x) as [y|]; [destruct (Req_EM_T y 0); [|destruct (Rlt_dec _ _)]|]; reflexivity). Qed.
Lemma limits_bound {W} maxiter rtol (w : W) x : bound_chi (snd (fst (limits maxiter rtol w x))) = bound_chi x.
Proof.
  unfold limits. destruct (match maxiter with Some m => (iteration x <? m)%Z | None => true end); [|reflexivity].
  unfold read_residue. destruct (residue_cache x) as [[|]|]; [reflexivity|reflexivity|]. destruct (calculate_residue x) as [[|]|]; reflexivity.
Qed.
Lemma loop_bound {W} maxiter rtol fuel : forall f (w : W) x w' x', loop fuel (limits maxiter rtol) f w x = Some (Returned w' x') -> bound_chi x' = bound_chi x.
Proof.
  induction fuel as [|fuel IH]; intros f w x w' x' H; [discriminate|]. cbn [loop] in H. pose proof (next_bound f x) as Hn.
  destruct (next f x) as [s1 [e|]] eqn:En; [discriminate|]. cbn [fst] in Hn. pose proof (limits_bound maxiter rtol w s1) as Hl.
  destruct (limits maxiter rtol w s1) as [[w2 s2] [b|e]] eqn:El; [|discriminate]. cbn [fst snd] in Hl. destruct b.
  - rewrite (IH _ _ _ _ _ H). congruence.
  - injection H as <- <-. congruence.
Qed.
Lemma column_more fuel maxiter rtol d x v r : column fuel maxiter rtol d x v = Some r -> forall k, column (fuel + k) maxiter rtol d x v = Some r.
Proof.
  unfold column. destruct (_ =? 0)%nat; [auto|]. unfold source2detfield. intros H k.
  destruct (loop fuel _ _ _ _) as [out|] eqn:E; [|discriminate]. rewrite (loop_more _ _ _ _ _ _ E k). exact H.
Qed.
Lemma columns_more fuel maxiter rtol d vs : forall x r, columns fuel maxiter rtol d x vs = Some r -> forall k, columns (fuel + k) maxiter rtol d x vs = Some r.
Proof.
  induction vs as [|v vs IH]; intros x r H k; [exact H|]. cbn [columns] in *. destruct (column fuel maxiter rtol d x v) as [[[u|e] x']|] eqn:E; [| |discriminate].
  - rewrite (column_more _ _ _ _ _ _ _ E k). destruct (columns fuel maxiter rtol d x' vs) as [[r' x'']|] eqn:E2; [|discriminate]. rewrite (IH _ _ E2 k). exact H.
  - rewrite (column_more _ _ _ _ _ _ _ E k). exact H.
Qed.

Lemma Cmod_Ci : Cmod Ci = 1%R.
Proof. unfold Cmod, Ci. cbn. match goal with |- sqrt ?x = _ => replace x with 1%R by ring end. apply sqrt_1. Qed.

(** ** Linearity *)
Lemma polarize_comb o j (a b : C) (w w' : nat -> C) c : polarize o j (fun p => a * w p + b * w' p) c = a * polarize o j w c + b * polarize o j w' c.
Proof. unfold polarize. destruct (Modes_Model.vectorial o); [|reflexivity]. cbn [csum]. destruct c; ring. Qed.
Lemma unpolarize_comb o j (a b : C) (e e' : nat -> C) p : unpolarize o j (fun c => a * e c + b * e' c) p = a * unpolarize o j e p + b * unpolarize o j e' p.
Proof. unfold unpolarize. destruct (Modes_Model.vectorial o); [|reflexivity]. cbn [csum]. ring. Qed.
Lemma spread_comb o (a b : C) (f g : nat -> C) x r : Modes_Model.spread o (fun j => a * f j + b * g j) x r = a * Modes_Model.spread o f x r + b * Modes_Model.spread o g x r.
Proof. rewrite !spread_sum, <- !csum_scal, <- csum_plus. apply csum_ext. intros j Hj. ring. Qed.
Lemma ift_comb s (a b : C) (f g : sfield) k : ift s (fun p => a * f p + b * g p) k = a * ift s f k + b * ift s g k.
Proof. rewrite ift_plus, !ift_scal. reflexivity. Qed.
Lemma detected_comb o (a b : C) (E F : vfield) side j p : detected o (combination a b E F) side j p = a * detected o E side j p + b * detected o F side j p.
Proof.
  unfold detected, combination. destruct (side =? 0)%nat.
  - match goal with |- unpolarize o j ?e p * _ * _ * _ = _ => replace e with (fun c => a * ift (shape_of o) (fun r => E c (plane o side :: r)) (rmode o j) + b * ift (shape_of o) (fun r => F c (plane o side :: r)) (rmode o j)) end.
    + rewrite unpolarize_comb. ring.
    + apply functional_extensionality. intros c. rewrite ift_comb. reflexivity.
  - match goal with |- Cconj (unpolarize o j ?e p * _ * _ * _) = _ => replace e with (fun c => Cconj a * ift (shape_of o) (fun r => Cconj (E c (plane o side :: r))) (rmode o j) + Cconj b * ift (shape_of o) (fun r => Cconj (F c (plane o side :: r))) (rmode o j)) end.
    + rewrite unpolarize_comb. rewrite !Cconj_mult, Cconj_plus, !Cconj_mult, !Cconj_conj. ring.
    + apply functional_extensionality. intros c. rewrite <- ift_comb. apply ift_ext. intros r _. rewrite Cconj_plus, !Cconj_mult. reflexivity.
Qed.
(** Detection only uses the detector planes. *)
Lemma detected_ext o (E F : vfield) side j p : (p < n_pol o)%nat ->
  (forall c r, (c < if Modes_Model.vectorial o then 3 else 1)%nat -> inside (shape_of o) r -> E c (plane o side :: r) = F c (plane o side :: r)) -> detected o E side j p = detected o F side j p.
Proof.
  intros Hp H. unfold detected.
  assert (forall c, (c < if Modes_Model.vectorial o then 3 else 1)%nat ->
    ift (shape_of o) (fun r => if (side =? 0)%nat then E c (plane o side :: r) else Cconj (E c (plane o side :: r))) (rmode o j) =
    ift (shape_of o) (fun r => if (side =? 0)%nat then F c (plane o side :: r) else Cconj (F c (plane o side :: r))) (rmode o j)) as K.
  { intros c Hc. apply ift_ext. intros r Hr. rewrite (H c r Hc Hr). reflexivity. }
  assert (forall f g : nat -> C, (forall c, (c < if Modes_Model.vectorial o then 3 else 1)%nat -> f c = g c) -> unpolarize o j f p = unpolarize o j g p) as U.
  { intros f g Hfg. unfold unpolarize. destruct (Modes_Model.vectorial o) eqn:V; [|apply Hfg; lia]. cbn [csum]. unfold n_pol in Hp. rewrite V in Hp.
    rewrite (Hfg 0%nat), (Hfg 1%nat), (Hfg 2%nat) by lia. destruct p as [|[|]]; [| |lia]; rewrite Hfg by lia; reflexivity. }
  rewrite (U _ _ K). reflexivity.
Qed.
(** The field of one side of a vector, without the test for negligible amplitudes. *)
Definition side_lin (o : optics) (v : vec) (side c x : nat) (r : list nat) : C :=
  if (side =? 0)%nat then Modes_Model.spread o (fun j => polarize o j (amplitude o v side j) c) x r
  else Cconj (Modes_Model.spread o (fun j => polarize o j (fun p => Cconj (amplitude o v side j p)) c) x r).
Lemma side_field_lin o v side c x r : valid o -> (c < 3)%nat -> significant o v side -> side_field o v side c (x :: r) = side_lin o v side c x r.
Proof.
  intros V Hc Sg. destruct (significant_cases o v side V Sg) as [Z|Z].
  - rewrite side_field_zero by exact Z. unfold side_lin. pose proof (amplitude_zero o v side Z) as A.
    assert (Modes_Model.spread o (fun _ => 0) x r = 0) as S0.
    { rewrite spread_sum. rewrite (csum_ext _ _ (fun _ => 0)); [apply csum_zero|]. intros j Hj. ring. }
    destruct (side =? 0)%nat.
    + rewrite (Modes_Fields.spread_ext o _ (fun _ => 0)); [symmetry; exact S0|]. intros j Hj. rewrite (polarize_ext o j _ (fun _ => 0)) by (try exact Hc; intros p Hp; apply A; assumption). apply polarize_zero.
    + rewrite (Modes_Fields.spread_ext o _ (fun _ => 0)); [rewrite S0, Cconj_R; reflexivity|]. intros j Hj.
      rewrite (polarize_ext o j _ (fun _ => 0)); [apply polarize_zero|exact Hc|]. intros p Hp. rewrite A by assumption. apply Cconj_R.
  - unfold side_field. rewrite Z. reflexivity.
Qed.
Definition vcomb (a b : C) (v w : vec) : vec := fun i => a * v i + b * w i.
Lemma side_lin_comb o (a b : C) v w side c x r : side_lin o (vcomb a b v w) side c x r = a * side_lin o v side c x r + b * side_lin o w side c x r.
Proof.
  unfold side_lin, amplitude, element, vcomb. destruct (side =? 0)%nat.
  - rewrite <- spread_comb. apply Modes_Fields.spread_ext. intros j Hj. rewrite <- polarize_comb. f_equal. apply functional_extensionality. intros p. unfold Cdiv. ring.
  - rewrite <- (Cconj_conj a), <- (Cconj_conj b) at 1. rewrite <- !Cconj_mult, <- Cconj_plus. f_equal. rewrite <- spread_comb.
    apply Modes_Fields.spread_ext. intros j Hj. rewrite <- polarize_comb. f_equal. apply functional_extensionality. intros p. unfold Cdiv. rewrite !Cconj_mult, Cconj_plus, !Cconj_mult. ring.
Qed.
Lemma side_lin_ext o v w side c x r : (c < 3)%nat -> (side < 2)%nat -> (forall i, (i < n_elements o)%nat -> v i = w i) -> side_lin o v side c x r = side_lin o w side c x r.
Proof.
  intros Hc Hs H. assert (forall j p, (j < n_modes o)%nat -> (p < n_pol o)%nat -> amplitude o v side j p = amplitude o w side j p) as A.
  { intros j p Hj Hp. unfold amplitude, element. rewrite H; [reflexivity|]. unfold n_elements. nia. }
  unfold side_lin. destruct (side =? 0)%nat; [|f_equal]; apply Modes_Fields.spread_ext; intros j Hj; apply polarize_ext; try exact Hc; intros p Hp; rewrite A by assumption; reflexivity.
Qed.
Lemma significant_only o v side side' : significant o v side' -> significant o (only_side o side v) side'.
Proof.
  unfold significant. intros H. destruct (Nat.eq_dec side side') as [->|N].
  - assert (forall i, (i < n_modes o * n_pol o)%nat -> only_side o side' v (side' * (n_modes o * n_pol o) + i)%nat = v (side' * (n_modes o * n_pol o) + i)%nat) as K.
    { intros i Hi. unfold only_side. rewrite Nat.div_add_l by lia. rewrite (Nat.div_small i) by exact Hi. rewrite Nat.add_0_r, Nat.eqb_refl. reflexivity. }
    destruct H as [H|(i & Hi & H)]; [left|right].
    + intros i Hi. rewrite K by exact Hi. apply H. exact Hi.
    + exists i. split; [exact Hi|]. rewrite K by exact Hi. exact H.
  - left. intros i Hi. unfold only_side. rewrite Nat.div_add_l by lia. rewrite (Nat.div_small i) by exact Hi. rewrite Nat.add_0_r.
    destruct (Nat.eqb_spec side' side) as [E|E]; [lia|reflexivity].
Qed.

(** ** Bounded functionals *)
Definition bounded_on (n : nat) (s : list nat) (L : vfield -> C) : Prop := exists K, (0 <= K)%R /\ forall E, (Cmod (L E) <= K * sqrt (vnorm2 n s E))%R.
Lemma bounded_zero n s : bounded_on n s (fun _ => 0).
Proof. exists 0%R. split; [lra|]. intros E. rewrite Cmod_0. lra. Qed.
Lemma bounded_point n s c p : (c < n)%nat -> inside s p -> bounded_on n s (fun E => E c p).
Proof.
  intros Hc Hp. exists 1%R. split; [lra|]. intros E. rewrite Rmult_1_l. apply Rsqr_incr_0_var; [|apply sqrt_pos].
  unfold Rsqr. rewrite sqrt_sqrt by apply vnorm2_nonneg. apply point_le_vnorm2; assumption.
Qed.
Lemma bounded_plus n s L M : bounded_on n s L -> bounded_on n s M -> bounded_on n s (fun E => L E + M E).
Proof.
  intros (K & HK & HL) (K' & HK' & HM). exists (K + K')%R. split; [lra|]. intros E. eapply Rle_trans; [apply Cmod_triangle|]. specialize (HL E). specialize (HM E). lra.
Qed.
Lemma bounded_scal n s (a : C) L : bounded_on n s L -> bounded_on n s (fun E => a * L E).
Proof.
  intros (K & HK & HL). exists (Cmod a * K)%R. pose proof (Cmod_ge_0 a) as Ha. split; [nra|]. intros E. rewrite Cmod_mult, Rmult_assoc. apply Rmult_le_compat_l; [exact Ha|apply HL].
Qed.
Lemma bounded_ext n s L M : (forall E, L E = M E) -> bounded_on n s L -> bounded_on n s M.
Proof. intros H (K & HK & HL). exists K. split; [exact HK|]. intros E. rewrite <- H. apply HL. Qed.
Lemma bounded_conj n s L : bounded_on n s L -> bounded_on n s (fun E => Cconj (L E)).
Proof. intros (K & HK & HL). exists K. split; [exact HK|]. intros E. rewrite Cmod_conj. apply HL. Qed.
Lemma bounded_csum n s m (L : nat -> vfield -> C) : (forall i, (i < m)%nat -> bounded_on n s (L i)) -> bounded_on n s (fun E => csum m (fun i => L i E)).
Proof.
  induction m as [|m IH]; intros H; [apply bounded_zero|]. cbn [csum]. apply bounded_plus; [apply IH; intros i Hi; apply H; lia|apply H; lia].
Qed.
Lemma bounded_sum_over n s t : forall (L : list nat -> vfield -> C), (forall q, inside t q -> bounded_on n s (L q)) -> bounded_on n s (fun E => sum_over t (fun q => L q E)).
Proof.
  induction t as [|k t IH]; intros L H; [apply H; constructor|]. cbn [sum_over]. apply (bounded_csum n s k (fun i E => sum_over t (fun q => L (i :: q) E))).
  intros i Hi. apply (IH (fun q E => L (i :: q) E)). intros q Hq. apply H. constructor; assumption.
Qed.
Lemma bounded_ift n s t (L : list nat -> vfield -> C) k : (forall q, inside t q -> bounded_on n s (L q)) -> bounded_on n s (fun E => ift t (fun q => L q E) k).
Proof.
  intros H. unfold ift. eapply bounded_ext; [intros E; apply Cmult_comm|]. apply bounded_scal.
  apply (bounded_sum_over n s t (fun q E => L q E * cis (phase t k q))). intros q Hq. eapply bounded_ext; [intros E; apply Cmult_comm|]. apply bounded_scal, H, Hq.
Qed.
Lemma bounded_unpolarize n s o j p (L : nat -> vfield -> C) : n = (if Modes_Model.vectorial o then 3 else 1)%nat -> (p < n_pol o)%nat -> (forall c, (c < n)%nat -> bounded_on n s (L c)) ->
  bounded_on n s (fun E => unpolarize o j (fun c => L c E) p).
Proof.
  intros -> Hp H. unfold unpolarize, n_pol in *. destruct (Modes_Model.vectorial o); [|apply H; lia].
  assert (forall (w : nat -> R) (M : nat -> vfield -> C), (forall c, (c < 3)%nat -> bounded_on 3 s (M c)) -> bounded_on 3 s (fun E => csum 3 (fun c => M c E * RtoC (w c)))) as D.
  { intros w M HM. apply (bounded_csum 3 s 3 (fun c E => M c E * RtoC (w c))). intros c Hc. eapply bounded_ext; [intros E; apply Cmult_comm|]. apply bounded_scal, HM, Hc. }
  set (l := fun E => csum 3 (fun c => L c E * RtoC (direction o j c))).
  assert (forall c, (c < 3)%nat -> bounded_on 3 s (fun E => L c E - l E * RtoC (direction o j c))) as T.
  { intros c Hc. eapply bounded_ext with (L := fun E => L c E + (- RtoC (direction o j c)) * l E); [intros E; ring|]. apply bounded_plus; [apply H; exact Hc|]. apply bounded_scal. apply D. exact H. }
  set (r := fun E => csum 3 (fun c => (L c E - l E * RtoC (direction o j c)) * RtoC (radial o j c))).
  assert (bounded_on 3 s r) as Br by (apply D; exact T).
  eapply bounded_ext with (L := fun E => (L (S p) E - l E * RtoC (direction o j (S p))) + (RtoC (radial_mode o j p) - RtoC (radial o j (S p))) * r E); [intros E; change (csum 3 (fun c => (L c E - csum 3 (fun c => L c E * RtoC (direction o j c)) * RtoC (direction o j c)) * RtoC (radial o j c))) with (r E); change (csum 3 (fun c => L c E * RtoC (direction o j c))) with (l E); generalize (r E), (l E); intros; ring|].
  apply bounded_plus; [apply T; lia|]. apply bounded_scal. exact Br.
Qed.
Lemma bounded_detected n s o side j p : n = (if Modes_Model.vectorial o then 3 else 1)%nat -> (p < n_pol o)%nat -> (forall r, inside (shape_of o) r -> inside s (plane o side :: r)) ->
  bounded_on n s (fun E => detected o E side j p).
Proof.
  intros Hn Hp Hi. unfold detected.
  assert (bounded_on n s (fun E => unpolarize o j (fun c => ift (shape_of o) (fun r => if (side =? 0)%nat then E c (plane o side :: r) else Cconj (E c (plane o side :: r))) (rmode o j)) p)) as U.
  { apply (bounded_unpolarize n s o j p (fun c E => ift (shape_of o) (fun r => if (side =? 0)%nat then E c (plane o side :: r) else Cconj (E c (plane o side :: r))) (rmode o j)) Hn Hp).
    intros c Hc. apply (bounded_ift n s (shape_of o) (fun r E => if (side =? 0)%nat then E c (plane o side :: r) else Cconj (E c (plane o side :: r)))). intros r Hr.
    pose proof (bounded_point n s c _ Hc (Hi r Hr)) as B. destruct (side =? 0)%nat; [exact B|apply (bounded_conj n s (fun E => E c (plane o side :: r)) B)]. }
  assert (forall z1 z2 z3 : C, bounded_on n s (fun E => unpolarize o j (fun c => ift (shape_of o) (fun r => if (side =? 0)%nat then E c (plane o side :: r) else Cconj (E c (plane o side :: r))) (rmode o j)) p * z1 * z2 * z3)) as V.
  { intros z1 z2 z3. eapply bounded_ext with (L := fun E => (z1 * z2 * z3) * unpolarize o j (fun c => ift (shape_of o) (fun r => if (side =? 0)%nat then E c (plane o side :: r) else Cconj (E c (plane o side :: r))) (rmode o j)) p); [intros E; ring|]. apply bounded_scal. exact U. }
  destruct (side =? 0)%nat; [apply V|]. apply bounded_conj. apply V.
Qed.
Lemma bounded_all n s m (L : nat -> vfield -> C) : (forall i, (i < m)%nat -> bounded_on n s (L i)) -> exists K, (0 <= K)%R /\ forall i E, (i < m)%nat -> (Cmod (L i E) <= K * sqrt (vnorm2 n s E))%R.
Proof.
  induction m as [|m IH]; intros H; [exists 0%R; split; [lra|intros; lia]|]. destruct IH as (K & HK & HL); [intros i Hi; apply H; lia|]. destruct (H m) as (K' & HK' & HL'); [lia|].
  exists (K + K')%R. split; [lra|]. intros i E Hi. pose proof (sqrt_pos (vnorm2 n s E)) as Hs. destruct (Nat.eq_dec i m) as [->|N].
  - specialize (HL' E). nra.
  - specialize (HL i E ltac:(lia)). nra.
Qed.

(** ** Lossy media *)
Section Lossy.
  Variables (d : device) (alpha : C) (beta : R) (eps mu : tensor) (chi : option sfield).
  Hypothesis Hd : well_laid d.
  Hypothesis Hl : lossy d alpha beta eps mu.
  Let made := made_of d alpha beta eps mu chi.
  Let o := optics_of d.

  Lemma started x S : made x -> let x0 := set_E (set_source x S) (fun _ _ => 0) in
    Run_Model.wavenumber x0 = k_vacuum d /\ operators x0 = prepare (scaled (k_vacuum d) (device_grid d)) (is_vectorial d) false alpha beta eps tzero tzero mu S /\
    (forall c p, field x0 c p = 0) /\ prev_norm x0 = Inf.
  Proof.
    intros (Hw & Hb & S0 & Ho). cbv zeta. split; [exact Hw|]. split; [|split; [|reflexivity]].
    - change (with_source (operators x) S = prepare (scaled (k_vacuum d) (device_grid d)) (is_vectorial d) false alpha beta eps tzero tzero mu S). rewrite Ho. destruct Hl as (_ & _ & Ha & Hb2 & _). apply with_source_prepare; lra.
    - intros c p. change (0 * RtoC (Run_Model.wavenumber x * Run_Model.wavenumber x) = 0). ring.
  Qed.
  Lemma source_solved x S maxiter rtol : made x -> (0 < rtol)%R -> exists fuel x',
    source2detfield fuel maxiter rtol x S = Some (Returned tt x') /\ made x'.
  Proof.
    intros Hx Ht. destruct (started x S Hx) as (A & B & D & F). destruct Hd as (Hs & _). destruct Hl as (Hf & Hm & Ha & Hb & loss & rho & H1 & H2 & H3 & H4).
    destruct (si_converges (is_vectorial d) (device_grid d) (k_vacuum d) alpha beta eps mu S Hs Hf Hm Ha Hb loss rho H3 H4 H2 none H1) as (E & q & _ & HE & _).
    destruct (si_solve_ends (is_vectorial d) (device_grid d) (k_vacuum d) alpha beta eps mu S Hs Hf Hm Ha Hb loss rho H3 H4 H2 _ A B D F E maxiter rtol tt ltac:(lra) HE Ht) as (fuel & x' & EL & m & (Xw & Xo & _) & _).
    exists fuel, x'. split; [exact EL|]. split; [exact Xw|]. split; [|exists S; exact Xo].
    rewrite (loop_bound _ _ _ _ _ _ _ _ EL). destruct Hx as (_ & Hb' & _). exact Hb'.
  Qed.
  Lemma column_exists x v maxiter rtol : made x -> (0 < rtol)%R -> exists fuel u x', column fuel maxiter rtol d x v = Some (Ok u, x') /\ made x'.
  Proof.
    intros Hx Ht. unfold column. destruct (_ =? 0)%nat; [exists 0%nat, zero_vec, x; auto|].
    destruct (source_solved x (source_of d v) maxiter rtol Hx Ht) as (fuel & x' & E & Hx'). exists fuel. rewrite E. eauto.
  Qed.
  Lemma column_made fuel maxiter rtol x y v u x' : made x -> made y -> column fuel maxiter rtol d x v = Some (Ok u, x') -> exists y', column fuel maxiter rtol d y v = Some (Ok u, y').
  Proof.
    intros Hx Hy. unfold column. destruct (_ =? 0)%nat.
    - intros [= <- <-]. exists y. reflexivity.
    - rewrite (same_source2detfield fuel maxiter rtol x y (source_of d v) (made_same _ _ _ _ _ _ _ _ Hx Hy)). intros H.
      destruct (source2detfield fuel maxiter rtol y (source_of d v)) as [[w z|w z e]|]; [|discriminate|discriminate]. injection H as <- <-. eauto.
  Qed.
  Lemma columns_exist maxiter rtol vs : (0 < rtol)%R -> forall x, made x -> exists fuel us x', columns fuel maxiter rtol d x vs = Some (Ok us, x') /\ made x' /\
    Forall2 (fun v u => forall y, made y -> exists y', column fuel maxiter rtol d y v = Some (Ok u, y')) vs us.
  Proof.
    intros Ht. induction vs as [|v vs IH]; intros x Hx.
    - exists 0%nat, [], x. split; [reflexivity|]. split; [exact Hx|constructor].
    - destruct (column_exists x v maxiter rtol Hx Ht) as (f1 & u & x1 & E1 & H1). destruct (IH x1 H1) as (f2 & us & x2 & E2 & H2 & HF).
      exists (f1 + f2)%nat, (u :: us), x2. split; [|split; [exact H2|]].
      + cbn [columns]. rewrite (column_more _ _ _ _ _ _ _ E1 f2). rewrite Nat.add_comm, (columns_more _ _ _ _ _ _ _ E2 f1). reflexivity.
      + constructor.
        * intros y Hy. destruct (column_made _ _ _ _ _ _ _ _ Hx Hy E1) as (y' & Ey). exists y'. apply column_more. exact Ey.
        * clear - HF. induction HF as [|v' u' l l' Hv _ IHF]; constructor; [|exact IHF]. intros y Hy. destruct (Hv y Hy) as (y' & Ey). exists y'. rewrite Nat.add_comm. apply column_more. exact Ey.
  Qed.

  (** The sources and the incident waves, as linear functions of the vector. *)
  Let n := components d.
  Let s := size_x d :: shape_of o.
  Lemma n_le : (n <= 3)%nat.
  Proof. unfold n, components. destruct (is_vectorial d); lia. Qed.
  Definition scaledv (v : vec) : vec := fun i => v i * (RtoC (cosine o ((i / n_pol o) mod n_modes o)) * source_amplitude d).
  Definition lin_source (v : vec) : vfield := fun c q =>
    match q with
    | [] => 0
    | x :: r => if (x =? back_source d)%nat then side_lin o (scaledv v) 1 c x r else if (x =? front_source d)%nat then side_lin o (scaledv v) 0 c x r else 0
    end.
  Lemma significant_scaled v side : significant o v side -> significant o (scaledv v) side.
  Proof.
    destruct Hd as (_ & _ & Hst & _ & _ & Hc). fold o in Hc. intros [H|(i & Hi & H)]; [left|right].
    - intros i Hi. unfold scaledv. rewrite H by exact Hi. ring.
    - exists i. split; [exact Hi|]. unfold scaledv. set (k := (side * (n_modes o * n_pol o) + i)%nat) in *.
      assert (n_modes o <> 0)%nat as Hn by (destruct (n_modes o); [cbn in Hi; lia|lia]).
      pose proof (Hc ((k / n_pol o) mod n_modes o)%nat (Nat.mod_upper_bound (k / n_pol o) (n_modes o) Hn)) as H1. unfold source_amplitude.
      rewrite !Cmod_mult, Cmod_opp, Cmod_Ci, !Cmod_R, Rmult_1_l, <- Rabs_mult. rewrite (Rabs_pos_eq (cosine o ((k / n_pol o) mod n_modes o) * (2 * k_vacuum d / step_x d))) by lra.
      pose proof (Cmod_ge_0 (v k)). nra.
  Qed.
  Lemma source_lin v c q : audible d v -> (c < 3)%nat -> source_of d v c q = lin_source v c q.
  Proof.
    intros (A0 & A1) Hc. fold o in A0, A1. destruct Hd as (_ & V & _). fold o in V. unfold source_of, srcvec2source, lin_source. fold o. destruct q as [|x r]; [reflexivity|].
    change (fun i => v i * (RtoC (cosine o ((i / n_pol o) mod n_modes o)) * source_amplitude d)) with (scaledv v).
    destruct (x =? back_source d)%nat; [|destruct (x =? front_source d)%nat; [|reflexivity]].
    - rewrite (freespace_only o (scaledv v) 1 c (x :: r)) by lia. apply side_field_lin; [exact V|exact Hc|apply significant_scaled; exact A1].
    - rewrite (freespace_only o (scaledv v) 0 c (x :: r)) by lia. apply side_field_lin; [exact V|exact Hc|apply significant_scaled; exact A0].
  Qed.
  Lemma scaledv_comb a b v w : scaledv (vcomb a b v w) = vcomb a b (scaledv v) (scaledv w).
  Proof. apply functional_extensionality. intros i. unfold scaledv, vcomb. ring. Qed.
  Lemma lin_source_comb a b v w c q : lin_source (vcomb a b v w) c q = a * lin_source v c q + b * lin_source w c q.
  Proof.
    unfold lin_source. destruct q as [|x r]; [ring|]. rewrite scaledv_comb. destruct (x =? back_source d)%nat; [|destruct (x =? front_source d)%nat; [|ring]]; apply side_lin_comb.
  Qed.
  Lemma lin_source_ext v w c q : (c < 3)%nat -> (forall i, (i < n_elements o)%nat -> v i = w i) -> lin_source v c q = lin_source w c q.
  Proof.
    intros Hc H. unfold lin_source. destruct q as [|x r]; [reflexivity|].
    assert (forall i, (i < n_elements o)%nat -> scaledv v i = scaledv w i) as H' by (intros i Hi; unfold scaledv; rewrite H by exact Hi; reflexivity).
    destruct (x =? back_source d)%nat; [|destruct (x =? front_source d)%nat; [|reflexivity]]; apply side_lin_ext; (exact Hc || exact H' || lia).
  Qed.
  Definition lin_out (E : vfield) (v : vec) : vfield := fun c q =>
    match q with
    | [] => 0
    | x :: r => E c (x :: r) - (if (x =? plane o 0)%nat then side_lin o v 1 c x r else 0) - (if (x =? plane o 1)%nat then side_lin o v 0 c x r else 0)
    end.
  Lemma out_lin E v c x r : audible d v -> (c < 3)%nat -> outward o (fun _ => E) v c (x :: r) = lin_out E v c (x :: r).
  Proof.
    intros (A0 & A1) Hc. fold o in A0, A1. destruct Hd as (_ & V & _). fold o in V. unfold outward, lin_out. cbn [hd]. change (1 - 0)%nat with 1%nat. change (1 - 1)%nat with 0%nat.
    rewrite (freespace_only o v 1 c (x :: r)), (freespace_only o v 0 c (x :: r)) by lia. rewrite !side_field_lin by assumption. reflexivity.
  Qed.
  Lemma lin_out_comb a b E F v w c x r : lin_out (combination a b E F) (vcomb a b v w) c (x :: r) = a * lin_out E v c (x :: r) + b * lin_out F w c (x :: r).
  Proof. unfold lin_out, combination. rewrite !side_lin_comb. destruct (x =? plane o 0)%nat, (x =? plane o 1)%nat; ring. Qed.
  Lemma lin_out_ext E F v w c x r : (c < 3)%nat -> E c (x :: r) = F c (x :: r) -> (forall i, (i < n_elements o)%nat -> v i = w i) -> lin_out E v c (x :: r) = lin_out F w c (x :: r).
  Proof.
    intros Hc HE H. unfold lin_out. rewrite HE. rewrite (side_lin_ext o v w 1 c x r), (side_lin_ext o v w 0 c x r) by (exact Hc || exact H || lia). reflexivity.
  Qed.

  (** The output, as a linear function of the field and the vector. *)
  Definition lin_output (E : vfield) (v : vec) : vec := detfield2detvec o (lin_out E v).
  Lemma element_bounds i : (i < n_elements o)%nat -> (i / (n_modes o * n_pol o) < 2)%nat /\ (i mod n_pol o < n_pol o)%nat.
  Proof.
    intros Hi. unfold n_elements in Hi. split.
    - apply Nat.div_lt_upper_bound; lia.
    - apply Nat.mod_upper_bound. unfold n_pol. destruct (Modes_Model.vectorial o); lia.
  Qed.
  Lemma plane_inside side r : inside (shape_of o) r -> inside s (plane o side :: r).
  Proof. intros Hr. destruct Hd as (_ & _ & _ & Hf & Hb & _). constructor; [|exact Hr]. fold o in Hf, Hb. unfold plane. destruct (side =? 0)%nat; assumption. Qed.
  Lemma output_lin E v i : audible d v -> (i < n_elements o)%nat -> exact_output d v E i = lin_output E v i.
  Proof.
    intros Hv Hi. destruct (element_bounds i Hi) as (_ & Hp). unfold exact_output, scatter, lin_output, detfield2detvec. fold o. apply detected_ext; [exact Hp|].
    intros c r Hc Hr. apply out_lin; [exact Hv|]. pose proof n_le. change (c < n)%nat in Hc. lia.
  Qed.
  Lemma output_ext E F v w i : (i < n_elements o)%nat -> vagree n s E F -> (forall i, (i < n_elements o)%nat -> v i = w i) -> lin_output E v i = lin_output F w i.
  Proof.
    intros Hi HE H. destruct (element_bounds i Hi) as (_ & Hp). unfold lin_output, detfield2detvec. apply detected_ext; [exact Hp|].
    intros c r Hc Hr. change (c < n)%nat in Hc. pose proof n_le. apply lin_out_ext; [lia| |exact H]. apply HE; [exact Hc|]. apply plane_inside. exact Hr.
  Qed.
  Lemma output_comb a b E F v w i : (i < n_elements o)%nat -> lin_output (combination a b E F) (vcomb a b v w) i = a * lin_output E v i + b * lin_output F w i.
  Proof.
    intros Hi. destruct (element_bounds i Hi) as (_ & Hp). unfold lin_output, detfield2detvec. rewrite <- detected_comb. apply detected_ext; [exact Hp|].
    intros c r Hc Hr. apply lin_out_comb.
  Qed.

  (** ** Superposition *)
  Definition field_sum (m : nat) (v : vec) (R : nat -> vfield) : vfield := fun c q => csum m (fun j => v j * R j c q).
  Definition vec_sum (m : nat) (v : vec) (b : nat -> vec) : vec := fun i => csum m (fun j => v j * b j i).
  Lemma field_sum_S m v R : field_sum (Datatypes.S m) v R = combination 1 (v m) (field_sum m v R) (R m).
  Proof. apply functional_extensionality. intros c. apply functional_extensionality. intros q. unfold field_sum, combination. cbn [csum]. ring. Qed.
  Lemma vec_sum_S m v b : vec_sum (Datatypes.S m) v b = vcomb 1 (v m) (vec_sum m v b) (b m).
  Proof. apply functional_extensionality. intros i. unfold vec_sum, vcomb. cbn [csum]. ring. Qed.
  Let wave (E S : vfield) := wave_equation (is_vectorial d) (device_grid d) (k_vacuum d) beta eps E S.
  Lemma wave_ext E S S' : wave E S -> vagree n s S S' -> wave E S'.
  Proof. intros H HS c p Hc Hp. rewrite (H c p Hc Hp). apply HS; assumption. Qed.
  Lemma wave_zero E S : wave E S -> wave (fun _ _ => 0) (fun _ _ => 0).
  Proof.
    intros H. assert (combination 0 0 E E = (fun _ _ => 0)) as K by (apply functional_extensionality; intros c; apply functional_extensionality; intros q; unfold combination; ring).
    rewrite <- K. eapply wave_ext; [apply (wave_combination _ _ _ _ _ 0 0 E E S S); exact H|]. intros c p _ _. unfold combination. ring.
  Qed.
  Lemma lin_source_zero c q : lin_source (fun _ => 0) c q = 0.
  Proof. replace (fun _ : nat => RtoC 0) with (vcomb 0 0 (fun _ => 0) (fun _ => 0)); [|apply functional_extensionality; intros i; unfold vcomb; ring]. rewrite lin_source_comb. ring. Qed.
  Lemma output_zero i : (i < n_elements o)%nat -> lin_output (fun _ _ => 0) (fun _ => 0) i = 0.
  Proof.
    intros Hi. transitivity (lin_output (combination 0 0 (fun _ _ => 0) (fun _ _ => 0)) (vcomb 0 0 (fun _ => 0) (fun _ => 0)) i).
    - apply output_ext; [exact Hi|intros c q _ _; unfold combination; ring|intros k _; unfold vcomb; ring].
    - rewrite output_comb by exact Hi. ring.
  Qed.
  Lemma sum_exact m v (b : nat -> vec) (R : nat -> vfield) E S : wave E S -> (forall j, (j < m)%nat -> wave (R j) (lin_source (b j))) ->
    wave (field_sum m v R) (lin_source (vec_sum m v b)).
  Proof.
    intros H0. induction m as [|m IH]; intros H.
    - eapply wave_ext; [exact (wave_zero E S H0)|]. intros c q _ _. symmetry. apply lin_source_zero.
    - rewrite field_sum_S, vec_sum_S. eapply wave_ext; [apply wave_combination; [apply IH; intros j Hj; apply H; lia|apply H; lia]|].
      intros c q _ _. unfold combination. rewrite lin_source_comb. reflexivity.
  Qed.
  Lemma sum_output m v (b : nat -> vec) (R : nat -> vfield) i : (i < n_elements o)%nat ->
    lin_output (field_sum m v R) (vec_sum m v b) i = csum m (fun j => v j * lin_output (R j) (b j) i).
  Proof.
    intros Hi. induction m as [|m IH]; [apply output_zero; exact Hi|]. rewrite field_sum_S, vec_sum_S, output_comb by exact Hi. rewrite IH. cbn [csum]. ring.
  Qed.
  Lemma wave_unique E E' S : wave E S -> wave E' S -> vagree n s E E'.
  Proof.
    intros H H'. destruct Hd as (Hs & _). destruct Hl as (Hf & Hm & Ha & Hb & loss & rho & H1 & H2 & H3 & H4).
    destruct (si_converges (is_vectorial d) (device_grid d) (k_vacuum d) alpha beta eps mu S Hs Hf Hm Ha Hb loss rho H3 H4 H2 none H1) as (E0 & q & _ & _ & HU & _).
    intros c p Hc Hp. rewrite (HU E H c p Hc Hp). symmetry. apply (HU E' H' c p Hc Hp).
  Qed.
  Lemma basis_audible j : (j < n_elements o)%nat -> audible d (basis j).
  Proof.
    intros Hj. assert (forall side, significant o (basis j) side) as H; [|split; apply H]. intros side. set (h := (n_modes o * n_pol o)%nat).
    destruct (Nat.eq_dec (j / h) side) as [E|E]; unfold n_elements in Hj; fold h in Hj.
    - right. fold h. exists (j mod h)%nat. assert (h <> 0)%nat by lia. split; [apply Nat.mod_upper_bound; assumption|].
      replace (side * h + j mod h)%nat with j by (rewrite <- E, Nat.mul_comm; apply Nat.div_mod; assumption). unfold basis. rewrite Nat.eqb_refl, Cmod_1. lra.
    - left. fold h. intros i Hi. unfold basis. destruct (Nat.eqb_spec (side * h + i) j) as [E2|E2]; [|reflexivity]. exfalso. apply E. rewrite <- E2, Nat.div_add_l by lia. rewrite Nat.div_small by exact Hi. lia.
  Qed.
  Lemma basis_sum (v : vec) i : (i < n_elements o)%nat -> vec_sum (n_elements o) v basis i = v i.
  Proof.
    intros Hi. unfold vec_sum. rewrite (csum_ext _ _ (fun j => if (j =? i)%nat then v j else 0)); [apply csum_delta; exact Hi|].
    intros j Hj. unfold basis. rewrite (Nat.eqb_sym j i). destruct (i =? j)%nat; ring.
  Qed.
  Lemma exact_linear v E (R : nat -> vfield) i : audible d v -> exact_field d beta eps v E -> (forall j, (j < n_elements o)%nat -> exact_field d beta eps (basis j) (R j)) ->
    (i < n_elements o)%nat -> exact_output d v E i = csum (n_elements o) (fun j => v j * exact_output d (basis j) (R j) i).
  Proof.
    intros Hv HE HR Hi. pose proof n_le as Hn.
    assert (forall w F, audible d w -> exact_field d beta eps w F -> wave F (lin_source w)) as W.
    { intros w F Hw HF. eapply wave_ext; [exact HF|]. intros c q Hc Hq. apply source_lin; [exact Hw|lia]. }
    rewrite output_lin by assumption.
    rewrite (output_ext E (field_sum (n_elements o) v R) v (vec_sum (n_elements o) v basis) i Hi).
    - rewrite sum_output by exact Hi. apply csum_ext. intros j Hj. rewrite output_lin by (try exact Hi; apply basis_audible; exact Hj). reflexivity.
    - apply (wave_unique _ _ (lin_source v)); [apply W; assumption|]. eapply wave_ext; [apply (sum_exact _ v basis R E _ HE)|].
      + intros j Hj. apply W; [apply basis_audible; exact Hj|apply HR; exact Hj].
      + intros c q Hc Hq. apply lin_source_ext; [lia|]. intros k Hk. apply basis_sum. exact Hk.
    - intros k Hk. symmetry. apply basis_sum. exact Hk.
  Qed.

  (** ** Accuracy *)
  Lemma output_bounded : exists K, (0 <= K)%R /\ forall i (v : vec) (E F : vfield), (i < n_elements o)%nat ->
    (Cmod (scatter o (fun _ => E) v i - scatter o (fun _ => F) v i)%C <= K * strength d (fun c p => E c p - F c p)%C)%R.
  Proof.
    destruct (bounded_all n s (n_elements o) (fun i E => detected o E (i / (n_modes o * n_pol o)) ((i / n_pol o) mod n_modes o) (i mod n_pol o))) as (K & HK & HL).
    { intros i Hi. destruct (element_bounds i Hi) as (_ & Hp). apply bounded_detected; [reflexivity|exact Hp|]. intros r Hr. apply plane_inside. exact Hr. }
    exists K. split; [exact HK|]. intros i v E F Hi. eapply Rle_trans; [|apply (HL i (fun c p => E c p - F c p) Hi)]. apply Req_le. f_equal.
    destruct (element_bounds i Hi) as (_ & Hp). unfold scatter, detfield2detvec.
    set (D := fun G => detected o G (i / (n_modes o * n_pol o)) ((i / n_pol o) mod n_modes o) (i mod n_pol o)).
    change (D (outward o (fun _ => E) v) - D (outward o (fun _ => F) v) = D (fun c p => E c p - F c p)).
    transitivity (D (combination 1 (- (1)) (outward o (fun _ => E) v) (outward o (fun _ => F) v))).
    - unfold D. rewrite detected_comb. ring.
    - unfold D. apply detected_ext; [exact Hp|]. intros c r _ _. unfold combination, outward. ring.
  Qed.
  Lemma zero_source (v : vec) c q : (c < 3)%nat -> (forall i, (i < n_elements o)%nat -> v i = RtoC 0) -> source_of d v c q = 0.
  Proof.
    intros Hc H. assert (audible d v) as A.
    { assert (forall side, (side < 2)%nat -> significant o v side) as K; [|split; apply K; lia]. intros side Hs. left. intros i Hi. apply H. unfold n_elements. nia. }
    rewrite source_lin by assumption. rewrite (lin_source_ext v (fun _ => 0)) by assumption. apply lin_source_zero.
  Qed.
  Lemma zero_output (v : vec) E i : (forall i, (i < n_elements o)%nat -> v i = RtoC 0) -> exact_field d beta eps v E -> (i < n_elements o)%nat -> exact_output d v E i = 0.
  Proof.
    intros H HE Hi. pose proof n_le as Hn. assert (audible d v) as A.
    { assert (forall side, (side < 2)%nat -> significant o v side) as K; [|split; apply K; lia]. intros side Hs. left. intros k Hk. apply H. unfold n_elements. nia. }
    rewrite output_lin by assumption. rewrite (output_ext E (fun _ _ => 0) v (fun _ => 0) i Hi); [apply output_zero; exact Hi| |exact H].
    apply (wave_unique _ _ (source_of d v)); [exact HE|]. eapply wave_ext; [exact (wave_zero _ _ HE)|]. intros c q Hc Hq. symmetry. apply zero_source; [lia|exact H].
  Qed.
  Lemma strength_made x E : made x -> magnitude x E = strength d E.
  Proof. intros (_ & _ & S & Ho). unfold magnitude, strength. rewrite Ho. reflexivity. Qed.
  Lemma column_error : exists K, (0 <= K)%R /\ forall fuel rtol x v u x' E i, made x -> (0 < rtol)%R -> column fuel None rtol d x v = Some (Ok u, x') ->
    exact_field d beta eps v E -> (i < n_elements o)%nat -> (Cmod (u i - exact_output d v E i)%C <= K * rtol * strength d (get_E x'))%R.
  Proof.
    destruct output_bounded as (K & HK & HB). destruct Hd as (Hs & _). destruct Hl as (Hf & Hm & Ha & Hb & loss & rho & H1 & H2 & H3 & H4).
    set (k := Rmin (2 * (loss / (beta * snd alpha))) (1 - rho * rho)).
    assert (0 < k)%R as Hk. { unfold k. apply Rmin_glb_lt; [|nra]. apply Rmult_lt_0_compat; [lra|]. apply Rdiv_lt_0_compat; nra. }
    assert (0 <= 4 / k)%R as H4k by (left; apply Rdiv_lt_0_compat; lra).
    exists (K * (4 / k))%R. split; [apply Rmult_le_pos; assumption|]. intros fuel rtol x v u x' E i Hx Ht Hc HE Hi. unfold column in Hc.
    destruct (length (non_zeros (n_elements (optics_of d)) v) =? 0)%nat eqn:E0.
    { injection Hc as <- <-. apply Nat.eqb_eq, length_zero_iff_nil in E0. rewrite (zero_output v E i (non_zeros_nil _ _ E0) HE Hi).
      replace (zero_vec i - 0)%C with (RtoC 0) by (unfold zero_vec; ring). rewrite Cmod_0. apply Rmult_le_pos; [apply Rmult_le_pos; [apply Rmult_le_pos; assumption|lra]|apply sqrt_pos]. }
    destruct (source2detfield fuel None rtol x (source_of d v)) as [[w y|w y e]|] eqn:E1; [|discriminate|discriminate]. injection Hc as <- <-.
    destruct (started x (source_of d v) Hx) as (A & B & D & F).
    destruct (si_solve_ends (is_vectorial d) (device_grid d) (k_vacuum d) alpha beta eps mu _ Hs Hf Hm Ha Hb loss rho H3 H4 H2 _ A B D F E None rtol tt ltac:(lra) HE Ht) as (fuel' & y' & EL & m & HR & [(z & Hz & _)|(Hsm & _)]); [discriminate|].
    assert (y' = y) as ->.
    { unfold source2detfield in E1. pose proof (loop_more _ _ _ _ _ _ E1 fuel') as P. pose proof (loop_more _ _ _ _ _ _ EL fuel) as Q. rewrite Nat.add_comm in Q. rewrite P in Q. injection Q as _ Q. congruence. }
    assert (made y) as Hy.
    { destruct HR as (Xw & Xo & _). split; [exact Xw|]. split; [|exists (source_of d v); exact Xo]. rewrite (loop_bound _ _ _ _ _ _ _ _ EL). destruct Hx as (_ & Hb' & _). exact Hb'. }
    eapply Rle_trans; [apply (HB i v (get_E y) E Hi)|]. rewrite !Rmult_assoc. apply Rmult_le_compat_l; [exact HK|].
    rewrite <- !(strength_made y) by exact Hy.
    eapply Rle_trans; [apply (si_error (is_vectorial d) (device_grid d) (k_vacuum d) alpha beta eps mu (source_of d v) Hs Hf Hm Ha Hb loss rho H3 H4 none E k m y (Rmin_l _ _) (Rmin_r _ _) Hk HE HR)|].
    rewrite (si_reached_E (is_vectorial d) (device_grid d) (k_vacuum d) alpha beta eps mu (source_of d v) Hs none m y HR).
    destruct Hs as (_ & Hk0 & _). assert (0 < k_vacuum d * k_vacuum d)%R as Hkk by (apply k2_pos; exact Hk0).
    apply Rmult_le_compat_l; [exact H4k|]. unfold Rdiv. rewrite <- Rmult_assoc. apply Rmult_le_compat_r; [left; apply Rinv_0_lt_compat; exact Hkk|].
    destruct Hsm as [Hz|Hle]; [|exact Hle]. rewrite Hz. apply Rmult_le_pos; [lra|apply norm_nonneg].
  Qed.
  Lemma exact_exists v : exists E, exact_field d beta eps v E.
  Proof.
    destruct Hd as (Hs & _). destruct Hl as (Hf & Hm & Ha & Hb & loss & rho & H1 & H2 & H3 & H4).
    destruct (si_converges (is_vectorial d) (device_grid d) (k_vacuum d) alpha beta eps mu (source_of d v) Hs Hf Hm Ha Hb loss rho H3 H4 H2 none H1) as (E & q & _ & HE & _). exists E. exact HE.
  Qed.
  Lemma finite_choice m (P : nat -> vfield -> Prop) : (forall j, exists E, P j E) -> exists R : nat -> vfield, forall j, (j < m)%nat -> P j (R j).
  Proof.
    intros H. induction m as [|m (R & HR)]; [exists (fun _ => none); intros; lia|]. destruct (H m) as (E & HE). exists (fun j => if (j =? m)%nat then E else R j).
    intros j Hj. destruct (Nat.eqb_spec j m) as [->|N]; [exact HE|apply HR; lia].
  Qed.
  Lemma csum_error m (f g : nat -> C) (r : nat -> R) : (forall j, (j < m)%nat -> (Cmod (f j - g j)%C <= r j)%R) -> (Cmod (csum m f - csum m g)%C <= rsum m r)%R.
  Proof.
    induction m as [|m IH]; intros H; cbn [csum rsum]; [replace (0 - 0)%C with (RtoC 0) by ring; rewrite Cmod_0; lra|].
    replace (csum m f + f m - (csum m g + g m))%C with ((csum m f - csum m g) + (f m - g m))%C by ring. eapply Rle_trans; [apply Cmod_triangle|].
    pose proof (H m ltac:(lia)). pose proof (IH ltac:(intros; apply H; lia)). lra.
  Qed.
  Lemma product_error : exists K, (0 <= K)%R /\ forall fuel rtol (x : solution) v u x' (y y' : nat -> solution) (w : nat -> vec) i,
    (0 < rtol)%R -> audible d v -> made x -> column fuel None rtol d x v = Some (Ok u, x') ->
    (forall j, (j < n_elements o)%nat -> made (y j) /\ column fuel None rtol d (y j) (basis j) = Some (Ok (w j), y' j)) -> (i < n_elements o)%nat ->
    (Cmod (u i - csum (n_elements o) (fun j => v j * w j i))%C <= K * rtol * (strength d (get_E x') + rsum (n_elements o) (fun j => Cmod (v j) * strength d (get_E (y' j)))))%R.
  Proof.
    destruct column_error as (K & HK & HC). exists K. split; [exact HK|]. intros fuel rtol x v u x' y y' w i Ht Hv Hx Hu Hw Hi.
    destruct (exact_exists v) as (E & HE).
    destruct (finite_choice (n_elements o) (fun j E => exact_field d beta eps (basis j) E) (fun j => exact_exists (basis j))) as (R & HR).
    pose proof (HC _ _ _ _ _ _ E i Hx Ht Hu HE Hi) as H1.
    pose proof (exact_linear v E R i Hv HE HR Hi) as H2.
    assert (Cmod (csum (n_elements o) (fun j => v j * exact_output d (basis j) (R j) i) - csum (n_elements o) (fun j => v j * w j i))%C <=
      rsum (n_elements o) (fun j => K * rtol * (Cmod (v j) * strength d (get_E (y' j)))))%R as H3.
    { apply csum_error. intros j Hj. destruct (Hw j Hj) as (Hy & Hc). pose proof (HC _ _ _ _ _ _ (R j) i Hy Ht Hc (HR j Hj) Hi) as H4.
      replace (v j * exact_output d (basis j) (R j) i - v j * w j i)%C with (v j * - (w j i - exact_output d (basis j) (R j) i))%C by ring.
      rewrite Cmod_mult, Cmod_opp. pose proof (Cmod_ge_0 (v j)). nra. }
    rewrite rsum_scal in H3.
    replace (u i - csum (n_elements o) (fun j => v j * w j i))%C with ((u i - exact_output d v E i) + (exact_output d v E i - csum (n_elements o) (fun j => v j * w j i)))%C by ring.
    eapply Rle_trans; [apply Cmod_triangle|]. rewrite H2 at 2. lra.
  Qed.
End Lossy.
