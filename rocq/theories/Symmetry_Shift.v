(** Translation of the medium and the source translates the solution. *)
From Coq Require Import Reals Lra Lia List Arith Bool FunctionalExtensionality.
Require Import Verif.Base Verif.Cplx Verif.CSum Verif.Field Verif.Fourier_Model Verif.Fourier_Spec Verif.Fourier_Proofs.
Require Import Verif.Vec_Model Verif.Vec_Spec Verif.Vec_Proofs Verif.Solver_Model Verif.Solver_Spec Verif.Solver_Proofs Verif.Solver_Choice.
Require Verif.Solver_Bounded.
Require Import Verif.Choice_Model Verif.Choice_Proofs Verif.Choice_Construct Verif.Material_Waves Verif.Symmetry_Spec.
Import ListNotations.
Local Open Scope R_scope.
Local Open Scope C_scope.

(** An operation in Fourier space that commutes with multiplication by a function of the frequency. *)
Definition multiplies (s : list nat) (n : nat) (op : vfield -> vfield) : Prop :=
  forall (w : C) F c k, (c < n)%nat -> inside s k -> op (fun c k => w * F c k) c k = w * op F c k.
Lemma ft_translated s q f k : inside s q -> inside s k -> ft s (fun p => f (wrap_sub s p q)) k = cis (- phase s q k) * ft s f k.
Proof.
  intros Hq Hk. rewrite <- (ft_ift s (fun k => cis (- phase s q k) * ft s f k) k Hk). apply ft_ext. intros p Hp.
  rewrite <- (ift_ft s f (wrap_sub s p q) (wrap_sub_inside s p q Hp Hq)). unfold ift. f_equal. apply sum_over_ext. intros j Hj. rewrite cis_wrap_sub by assumption. unfold Rminus. rewrite cis_plus. ring.
Qed.
Lemma convolve_translated s n op F q : pointwise s n op -> multiplies s n op -> inside s q -> vagree n s (convolve s op (translated s q F)) (translated s q (convolve s op F)).
Proof.
  intros Hpw Hm Hq c p Hc Hp. unfold translated at 2. unfold convolve, vift.
  transitivity (ift s (fun k => cis (- phase s q k) * op (vft s F) c k) p).
  - apply ift_ext. intros k Hk. rewrite <- (Hm (cis (- phase s q k)) (vft s F) c k Hc Hk). apply (Hpw _ _ k Hk); [|exact Hc]. intros d Hd. unfold vft, translated. apply ft_translated; assumption.
  - unfold ift. f_equal. apply sum_over_ext. intros j Hj. rewrite cis_wrap_sub by assumption. unfold Rminus. rewrite cis_plus. ring.
Qed.
Lemma longitudinal_multiplies g n : multiplies (rshape g) n (longitudinal_ft g).
Proof.
  intros w F c k _ _. unfold longitudinal_ft. destruct (Nat.ltb c (rndim g)); [|ring]. destruct (is_origin k); [reflexivity|].
  rewrite (csum_ext _ _ (fun i => w * (RtoC (kvec g i k) * F i k))) by (intros; ring). rewrite csum_scal. unfold Cdiv. ring.
Qed.
Lemma g_multiplies o n : multiplies (rshape (o_grid o)) n (g_ft_op o).
Proof.
  intros w F c k Hc Hk. unfold g_ft_op. rewrite (longitudinal_multiplies (o_grid o) n w F c k Hc Hk). destruct (o_vectorial o); ring.
Qed.
Lemma tapply_translated s q t F c p : tapply (translated_tensor s q t) (translated s q F) c p = translated s q (tapply t F) c p.
Proof. destruct t; reflexivity. Qed.

Section Translated.
  Variables (g : raster) (v : bool) (alpha : C) (beta : R) (epsilon : tensor) (mu : C) (S : vfield) (q : list nat).
  Hypothesis Hn : v = true -> (rndim g <= 3)%nat.
  Hypothesis Hf : fits v epsilon.
  Let s := rshape g.
  Hypothesis Hq : inside s q.
  Let n := (if v then 3 else 1)%nat.
  Let o := prepare g v false alpha beta epsilon tzero tzero (tuniform mu) S.
  Let o' := prepare g v false alpha beta (translated_tensor s q epsilon) tzero tzero (tuniform mu) (translated s q S).
  Lemma sh_chi F : chi_op o' (translated s q F) = translated s q (chi_op o F).
  Proof.
    apply functional_extensionality; intros c; apply functional_extensionality; intros p. unfold chi_op, o', o, prepare, update_operators, precondition. cbn [o_magnetic o_chiEE o_alpha].
    destruct epsilon; reflexivity.
  Qed.
  Lemma sh_source c p : o_source o' c p = translated s q (o_source o) c p.
  Proof. reflexivity. Qed.
  Lemma sh_chi_vagree F G : vagree n s F G -> vagree n s (chi_op o' F) (chi_op o' G).
  Proof.
    intros H. unfold chi_op, o', prepare, update_operators, precondition. cbn [o_magnetic o_chiEE o_alpha]. apply tapply_vagree; [|exact H].
    unfold n. destruct v; [left; reflexivity|]. destruct epsilon; [right; exact I|discriminate Hf].
  Qed.
  Lemma sh_pointwise : pointwise s n (g_ft_op o').
  Proof. apply (g_pointwise o' n). intros e. cbn [o_vectorial o_grid o' prepare update_operators precondition] in *. unfold n. unfold o', prepare, update_operators, precondition in e. cbn in e. rewrite e. apply Hn, e. Qed.
  Lemma sh_green F : vagree n s (green_op o' (translated s q F)) (translated s q (green_op o F)).
  Proof. exact (convolve_translated s n (g_ft_op o') F q sh_pointwise (g_multiplies o' n) Hq). Qed.
  Lemma sh_green_vagree F G : vagree n s F G -> vagree n s (green_op o' F) (green_op o' G).
  Proof. exact (convolve_vagree s n (g_ft_op o') F G sh_pointwise). Qed.
  Lemma sh_update F F' : vagree n s F' (translated s q F) -> vagree n s (update o' F') (translated s q (update o F)).
  Proof.
    intros H. unfold update. cbv zeta.
    set (X := fun c p => chi_op o F c p + o_source o c p). set (X' := fun c p => chi_op o' F' c p + o_source o' c p). set (D := fun c p => green_op o X c p - F c p).
    assert (A : vagree n s X' (translated s q X)).
    { intros c p Hc Hp. unfold X', X, translated. rewrite (sh_chi_vagree F' _ H c p Hc Hp), sh_chi. reflexivity. }
    assert (B : vagree n s (fun c p => green_op o' X' c p - F' c p) (translated s q D)).
    { intros c p Hc Hp. rewrite (sh_green_vagree X' _ A c p Hc Hp), (sh_green X c p Hc Hp), (H c p Hc Hp). reflexivity. }
    intros c p Hc Hp. rewrite (sh_chi_vagree _ _ B c p Hc Hp), sh_chi. reflexivity.
  Qed.
  Lemma sh_iter F i : vagree n s (Nat.iter i (next_field o') (translated s q F)) (translated s q (Nat.iter i (next_field o) F)).
  Proof.
    induction i as [|i IH]; [intros c p _ _; reflexivity|]. intros c p Hc Hp.
    change (next_field o' (Nat.iter i (next_field o') (translated s q F)) c p = translated s q (next_field o (Nat.iter i (next_field o) F)) c p).
    unfold next_field at 1. rewrite (sh_update _ _ IH c p Hc Hp), (IH c p Hc Hp). reflexivity.
  Qed.
End Translated.

(** ** The constants do not change *)
Fixpoint wrap_add (s p q : list nat) : list nat := match s, p, q with n :: s', a :: p', b :: q' => ((a + b) mod n)%nat :: wrap_add s' p' q' | _, _, _ => [] end.
Lemma wrap_add_inside s p q : inside s p -> inside s q -> inside s (wrap_add s p q).
Proof.
  intros Hp. revert q. induction Hp as [|n a s p Ha Hp IH]; intros q Hq; inversion Hq; subst; cbn [wrap_add]; constructor; [apply Nat.mod_upper_bound; lia|apply IH; assumption].
Qed.
Lemma wrap_sub_add s p q : inside s p -> inside s q -> wrap_sub s (wrap_add s p q) q = p.
Proof.
  intros Hp. revert q. induction Hp as [|n a s p Ha Hp IH]; intros q Hq; inversion Hq; subst; cbn [wrap_add wrap_sub]; [reflexivity|]. f_equal; [|apply IH; assumption].
  rewrite Nat.add_mod_idemp_l by lia. replace (a + y + (n - y))%nat with (a + 1 * n)%nat by lia. rewrite Nat.mod_add by lia. apply Nat.mod_small. exact Ha.
Qed.
Lemma rmax_least k f M : (0 <= M)%R -> (forall i, (i < k)%nat -> (f i <= M)%R) -> (rmax k f <= M)%R.
Proof. intros HM. induction k as [|k IH]; intros H; cbn [rmax]; [exact HM|]. apply Rmax_lub; [apply IH; intros; apply H; lia|apply H; lia]. Qed.
Lemma rmax_over_least s : forall F M, (0 <= M)%R -> (forall p, inside s p -> (F p <= M)%R) -> (rmax_over s F <= M)%R.
Proof.
  induction s as [|k s IH]; intros F M HM H; cbn [rmax_over]; [apply Rmax_lub; [exact HM|apply H; constructor]|]. apply rmax_least; [exact HM|]. intros i Hi. apply IH; [exact HM|]. intros p Hp. apply H. constructor; assumption.
Qed.
Lemma rmax_over_translated s q F : inside s q -> rmax_over s (fun p => F (wrap_sub s p q)) = rmax_over s F.
Proof.
  intros Hq. apply Rle_antisym; apply rmax_over_least; try apply Solver_Bounded.rmax_over_nonneg; intros p Hp.
  - apply rmax_over_ge. apply wrap_sub_inside; assumption.
  - pose proof (rmax_over_ge s (fun p => F (wrap_sub s p q)) (wrap_add s p q) (wrap_add_inside s p q Hp Hq)) as H. cbv beta in H. rewrite wrap_sub_add in H by assumption. exact H.
Qed.
Lemma any_over_translated s q F : inside s q -> any_over s (fun p => F (wrap_sub s p q)) = any_over s F.
Proof.
  intros Hq. apply eq_true_iff_eq. rewrite !any_over_spec. split; intros (p & Hp & H).
  - exists (wrap_sub s p q). split; [apply wrap_sub_inside; assumption|exact H].
  - exists (wrap_add s p q). split; [apply wrap_add_inside; assumption|]. rewrite wrap_sub_add by assumption. exact H.
Qed.
Section Constants.
  Variables (eps : R) (s q : list nat).
  Hypothesis Hq : inside s q.
  Notation tr := (translated_tensor s q).
  Lemma tr_tsub a b : tsub (tr a) (tr b) = tr (tsub a b).
  Proof. destruct a, b; reflexivity. Qed.
  Lemma tr_tadd a b : tadd (tr a) (tr b) = tr (tadd a b).
  Proof. destruct a, b; reflexivity. Qed.
  Lemma tr_tmul a b : tmul (tr a) (tr b) = tr (tmul a b).
  Proof. destruct a, b; reflexivity. Qed.
  Lemma tr_tscale a b : tscale a (tr b) = tr (tscale a b).
  Proof. destruct b; reflexivity. Qed.
  Lemma tr_tadjoint b : tadjoint (tr b) = tr (tadjoint b).
  Proof. destruct b; reflexivity. Qed.
  Lemma tr_tinv b : tinv (tr b) = tr (tinv b).
  Proof. destruct b; reflexivity. Qed.
  Lemma tr_uniform z : TScalar (fun _ => z) = tr (TScalar (fun _ => z)).
  Proof. reflexivity. Qed.
  Lemma tr_eigenvalues t p : eigenvalues eps (tr t) p = eigenvalues eps t (wrap_sub s p q).
  Proof. destruct t; reflexivity. Qed.
  Lemma tr_largest t : largest_eigenvalue eps s (tr t) = largest_eigenvalue eps s t.
  Proof. unfold largest_eigenvalue. etransitivity; [|exact (rmax_over_translated s q (fun p => fold_right Rmax 0%R (map Cmod (eigenvalues eps t p))) Hq)]. f_equal. apply functional_extensionality. intros p. rewrite tr_eigenvalues. reflexivity. Qed.
  Lemma tr_gain t : has_gain eps s (tr t) = has_gain eps s t.
  Proof.
    unfold has_gain. etransitivity; [|exact (any_over_translated s q (fun p => existsb (fun x : C => Modes_Model.Rltb (fst x) (- max_allowed_gain eps)) (eigenvalues eps (antihermitian t) p)) Hq)]. f_equal. apply functional_extensionality. intros p. unfold antihermitian.
    rewrite tr_tadjoint, tr_tsub, tr_tscale, tr_eigenvalues. reflexivity.
  Qed.
  Lemma tr_loss t : has_loss eps s (tr t) = has_loss eps s t.
  Proof. unfold has_loss. rewrite tr_tscale. apply tr_gain. Qed.
  Lemma tr_effective e xi zeta mu : effective_epsilon (tr e) (tr xi) (tr zeta) (tr mu) = tr (effective_epsilon e xi zeta mu).
  Proof. unfold effective_epsilon. rewrite tr_tinv, tr_tmul, !tr_tscale, tr_tmul, tr_tsub. reflexivity. Qed.
  Lemma tr_sigma e a b : sigma_EE eps s (tr e) a b = sigma_EE eps s e a b.
  Proof.
    unfold sigma_EE, delta_tensor. rewrite tr_tadjoint, !tr_tscale, tr_tadd, tr_tmul, (tr_uniform (RtoC _)), tr_tsub, tr_tadd, tr_largest. reflexivity.
  Qed.
  Lemma tr_choose step k0 e (mu : C) settled kappa : choose eps s step k0 (tr e) tzero tzero (tuniform mu) settled kappa = choose eps s step k0 e tzero tzero (tuniform mu) settled kappa.
  Proof.
    unfold choose. rewrite not_magnetic, !effective_nonmagnetic, tr_sigma. unfold transposes, some_gain, some_loss. rewrite !tr_gain, !tr_loss. reflexivity.
  Qed.
End Constants.

Lemma translation_proof eps g k0 v epsilon (mu : C) settled kappa S F q i : (v = true -> (rndim g <= 3)%nat) -> fits v epsilon -> let s := rshape g in inside s q ->
  let o := construct eps g k0 v epsilon tzero tzero (tuniform mu) settled kappa S in
  let o' := construct eps g k0 v (translated_tensor s q epsilon) tzero tzero (tuniform mu) settled kappa (translated s q S) in
  vagree (if v then 3 else 1) s (Nat.iter i (next_field o') (translated s q F)) (translated s q (Nat.iter i (next_field o) F)).
Proof.
  intros Hn Hf s Hq o o'. unfold o, o', construct. unfold s. rewrite (tr_choose eps (rshape g) q Hq). rewrite !not_magnetic. destruct (choose _ _ _ _ _ _ _ _ _ _) as [alpha beta].
  apply (sh_iter {| rshape := rshape g; rstep := map (Rmult k0) (rstep g) |} v alpha beta epsilon mu S q); assumption.
Qed.
