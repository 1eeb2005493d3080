(** Proofs about the history of a Solution. *)
From Coq Require Import Reals Lra Lia List Arith ZArith Bool.
Require Import Verif.Base Verif.Cplx Verif.CSum Verif.Field Verif.Fourier_Model Verif.Fourier_Spec Verif.Fourier_Proofs.
Require Import Verif.Vec_Model Verif.Vec_Spec Verif.Vec_Proofs Verif.Solver_Model Verif.Solver_Spec Verif.Solver_Proofs Verif.Solver_Convergence Verif.Solver_Choice.
Require Import Verif.Derived_Model Verif.Derived_Spec Verif.Run_Model Verif.Run_Spec.
Import ListNotations.
Local Open Scope R_scope.
Local Open Scope C_scope.

Lemma vfield_ext (F G : vfield) : (forall c p, F c p = G c p) -> F = G.
Proof. intros H. apply FunctionalExtensionality.functional_extensionality. intros c. apply FunctionalExtensionality.functional_extensionality. apply H. Qed.
Lemma k2_neq (k0 : R) : k0 <> 0%R -> RtoC (k0 * k0) <> 0.
Proof. intros H. apply RtoC_neq, Rmult_integral_contrapositive. split; assumption. Qed.
Lemma k2_pos (k0 : R) : k0 <> 0%R -> (0 < k0 * k0)%R.
Proof. intros H. nra. Qed.

(** ** Norms *)
Lemma norm_nonneg o F : (0 <= norm o F)%R.
Proof. apply sqrt_pos. Qed.
Lemma norm_scal o (a : R) F : norm o (fun c p => F c p / RtoC a) = (norm o F / Rabs a)%R \/ a = 0%R.
Proof.
  destruct (Req_EM_T a 0) as [->|H]; [right; reflexivity|left]. unfold norm.
  rewrite (vagree_vnorm2 _ _ (fun c p => F c p / RtoC a) (fun c p => RtoC (/ a) * F c p)) by (intros c p _ _; rewrite RtoC_inv by assumption; unfold Cdiv; ring).
  rewrite vnorm2_scal, Cmod_R. rewrite sqrt_mult by (apply Rle_0_sqr || apply vnorm2_nonneg).
  rewrite sqrt_square by apply Rabs_pos. rewrite Rabs_inv. unfold Rdiv. ring.
Qed.
Lemma norm_electric o (k0 : R) F : k0 <> 0%R -> norm o (fun c p => F c p / RtoC (k0 * k0)) = (norm o F / (k0 * k0))%R.
Proof.
  intros Hk. destruct (norm_scal o (k0 * k0) F) as [H|H]; [|pose proof (k2_pos k0 Hk); lra].
  rewrite H, Rabs_pos_eq by (pose proof (k2_pos k0 Hk); lra). reflexivity.
Qed.
Lemma norm_zero o : norm o (fun _ _ => 0) = 0%R.
Proof. unfold norm. rewrite vnorm2_zero_field. apply sqrt_0. Qed.
Lemma norm_ext o F G : vagree (vector_length o) (rshape (o_grid o)) F G -> norm o F = norm o G.
Proof. intros H. unfold norm. f_equal. apply vagree_vnorm2. exact H. Qed.
Lemma norm_zero_agree o F : norm o F = 0%R -> vagree (vector_length o) (rshape (o_grid o)) F (fun _ _ => 0).
Proof. intros H. apply vnorm2_zero. apply sqrt_eq_0; [apply vnorm2_nonneg|exact H]. Qed.
Lemma magnitude_norm s F : magnitude s F = norm (operators s) F.
Proof. reflexivity. Qed.

Lemma history_cons u a l s : history u (a :: l) s = history u l (perform u s a).
Proof. reflexivity. Qed.

(** ** One iteration *)
Section Next.
  Variables (s : solution) (fresh : bool).
  Hypothesis Hk : wavenumber s <> 0%R.
  Let o := operators s.
  Let d := update o (field s).
  Let s' := fst (next fresh s).

  Lemma next_accept : (prev_norm s = Inf \/ exists q, prev_norm s = Fin q /\ (0 < q)%R /\ (norm o d < q)%R) ->
    next fresh s = (set_prev_norm (set_field (set_residue (set_iteration s ((if fresh then 0 else iteration s) + 1)) None)
                    (fun c p => field s c p + d c p)) (Fin (norm o d)), None).
  Proof.
    intros H. unfold next. destruct fresh; cbn [prev_norm set_residue set_iteration iteration operators field]; fold o; fold d.
    - destruct H as [-> | (q & -> & H0 & Hq)]; [reflexivity|]. destruct (Req_EM_T q 0); [lra|]. destruct (Rlt_dec _ 1) as [|nlt]; [reflexivity|].
      exfalso. apply nlt. apply Rmult_lt_reg_r with q; [exact H0|]. unfold Rdiv. rewrite Rmult_assoc, Rinv_l by lra. lra.
    - destruct H as [-> | (q & -> & H0 & Hq)]; [reflexivity|]. destruct (Req_EM_T q 0); [lra|]. destruct (Rlt_dec _ 1) as [|nlt]; [reflexivity|].
      exfalso. apply nlt. apply Rmult_lt_reg_r with q; [exact H0|]. unfold Rdiv. rewrite Rmult_assoc, Rinv_l by lra. lra.
  Qed.
  Lemma next_reject q : prev_norm s = Fin q -> (0 < q)%R -> (q <= norm o d)%R ->
    next fresh s = (set_operators (set_residue (set_iteration s ((if fresh then 0 else iteration s) + 1)) None)
                    (update_operators o (fst (o_alpha o), (15 / 10 * snd (o_alpha o))%R)), None).
  Proof.
    intros H H0 Hq. unfold next.
    assert (~ (norm o d / q < 1)%R) as Hn.
    { intros Hn. apply (Rmult_lt_compat_r q) in Hn; [|exact H0]. unfold Rdiv in Hn. rewrite Rmult_assoc, Rinv_l in Hn by lra. lra. }
    destruct fresh; cbn [prev_norm set_residue set_iteration iteration operators field]; fold o; fold d; rewrite H;
    (destruct (Req_EM_T q 0); [lra|]); (destruct (Rlt_dec _ 1); [contradiction|]); reflexivity.
  Qed.
  Lemma next_raise : prev_norm s = Fin 0 ->
    next fresh s = (set_residue (set_iteration s ((if fresh then 0 else iteration s) + 1)) None, Some ZeroDivisionError).
  Proof.
    intros H. unfold next. destruct fresh; cbn [prev_norm set_residue set_iteration iteration operators field]; rewrite H;
    (destruct (Req_EM_T 0 0) as [_|n]; [reflexivity|destruct (n eq_refl)]).
  Qed.
End Next.

(** The cases, when the stored norm is not negative. *)
Definition norm_ok (s : solution) : Prop := match prev_norm s with Inf => True | Fin q => (0 <= q)%R end.
Lemma next_cases s : norm_ok s ->
  (prev_norm s = Inf \/ exists q, prev_norm s = Fin q /\ (0 < q)%R /\ (norm (operators s) (update (operators s) (field s)) < q)%R) \/
  (exists q, prev_norm s = Fin q /\ (0 < q)%R /\ (q <= norm (operators s) (update (operators s) (field s)))%R) \/
  prev_norm s = Fin 0.
Proof.
  unfold norm_ok. destruct (prev_norm s) as [q|] eqn:E; intros H; [|left; left; reflexivity].
  destruct (Rle_lt_or_eq_dec 0 q H) as [Hq|<-].
  - destruct (Rlt_le_dec (norm (operators s) (update (operators s) (field s))) q).
    + left. right. exists q. auto.
    + right. left. exists q. auto.
  - right. right. reflexivity.
Qed.
Lemma norm_ok_next s fresh : norm_ok s -> norm_ok (fst (next fresh s)).
Proof.
  intros H. destruct (next_cases s H) as [Hc|[(q & H1 & H2 & H3)|Hc]].
  - rewrite (next_accept s fresh Hc). cbn. apply norm_nonneg.
  - rewrite (next_reject s fresh q H1 H2 H3). unfold norm_ok. cbn. rewrite H1. lra.
  - rewrite (next_raise s fresh Hc). unfold norm_ok. cbn. rewrite Hc. lra.
Qed.
Lemma read_residue_same s : exists r, fst (read_residue s) = set_residue s r.
Proof.
  unfold read_residue. destruct (residue_cache s) as [r|] eqn:E.
  - exists (Some r). destruct s. cbn in *. rewrite E. reflexivity.
  - destruct (calculate_residue s); cbn; [eexists; reflexivity|]. exists None. destruct s. cbn in *. rewrite E. reflexivity.
Qed.
Lemma norm_ok_perform u s a : norm_ok s -> norm_ok (perform u s a).
Proof.
  intros H. destruct a; cbn [perform]; try exact I; try exact H; [apply norm_ok_next; exact H|].
  destruct (read_residue_same s) as (r & ->). exact H.
Qed.
Lemma norm_ok_history u l s : norm_ok s -> norm_ok (history u l s).
Proof. revert s. induction l as [|a l IH]; intros s H; [exact H|]. cbn. apply IH, norm_ok_perform, H. Qed.

(** ** Public view of one iteration *)
Lemma change_accept s F : wavenumber s <> 0%R ->
  forall s', wavenumber s' = wavenumber s -> field s' = (fun c p => field s c p + F c p) ->
  change s s' = (norm (operators s) F / (wavenumber s * wavenumber s))%R.
Proof.
  intros Hk s' H1 H2. unfold change. rewrite magnitude_norm, <- norm_electric by assumption. apply norm_ext. intros c p _ _.
  unfold get_E, electric_field. rewrite H1, H2. field. apply k2_neq. exact Hk.
Qed.
Lemma change_same s s' : wavenumber s' = wavenumber s -> field s' = field s -> change s s' = 0%R.
Proof.
  intros H1 H2. unfold change. rewrite magnitude_norm, <- (norm_zero (operators s)). apply norm_ext. intros c p _ _.
  unfold get_E. rewrite H1, H2. ring.
Qed.

(** ** Invariants of the history *)
Lemma perform_wavenumber u s a : wavenumber (perform u s a) = wavenumber s.
Proof.
  destruct a; cbn [perform]; try reflexivity.
  - unfold next. destruct fresh; cbn; destruct (prev_norm s); cbn; try reflexivity;
    (destruct (Req_EM_T _ _); [reflexivity|]); destruct (Rlt_dec _ _); reflexivity.
  - destruct (read_residue_same s) as (r & ->). reflexivity.
Qed.
Lemma history_wavenumber u l s : wavenumber (history u l s) = wavenumber s.
Proof. revert s. induction l as [|a l IH]; intros s; [reflexivity|]. rewrite history_cons, IH. apply perform_wavenumber. Qed.

Lemma update_same_grid o a : o_grid (update_operators o a) = o_grid o /\ vector_length (update_operators o a) = vector_length o.
Proof. split; reflexivity. Qed.
Lemma perform_grid u s a : o_grid (operators (perform u s a)) = o_grid (operators s) /\
  vector_length (operators (perform u s a)) = vector_length (operators s).
Proof.
  destruct a; cbn [perform]; try (split; reflexivity).
  - unfold next. destruct fresh; cbn; destruct (prev_norm s); cbn; try (split; reflexivity);
    (destruct (Req_EM_T _ _); [split; reflexivity|]); destruct (Rlt_dec _ _); split; reflexivity.
  - destruct (read_residue_same s) as (r & ->). split; reflexivity.
Qed.
Lemma history_grid u l s : o_grid (operators (history u l s)) = o_grid (operators s) /\
  vector_length (operators (history u l s)) = vector_length (operators s).
Proof.
  revert s. induction l as [|a l IH]; intros s; [split; reflexivity|]. rewrite history_cons. destruct (IH (perform u s a)) as (-> & ->). apply perform_grid.
Qed.
Lemma history_app u l l' s : history u (l ++ l') s = history u l' (history u l s).
Proof. apply fold_left_app. Qed.

(** ** The counter *)
Lemma next_iteration s fresh : iteration (fst (next fresh s)) = ((if fresh then 0 else iteration s) + 1)%Z.
Proof.
  unfold next. destruct fresh; cbn; destruct (prev_norm s); cbn; try reflexivity;
  (destruct (Req_EM_T _ _); [reflexivity|]); destruct (Rlt_dec _ _); reflexivity.
Qed.
Lemma count u l s : Forall keeps_count l -> iteration (history u l s) = (iteration s + Z.of_nat (length (filter is_next l)))%Z.
Proof.
  revert s. induction l as [|a l IH]; intros s H; [cbn; lia|]. inversion H as [|? ? Ha Hl]; subst. rewrite history_cons.
  rewrite (IH _ Hl). destruct a; cbn [perform filter is_next keeps_count] in *; try (cbn; lia).
  - subst fresh. rewrite next_iteration. cbn [length]. lia.
  - destruct (read_residue_same s) as (r & ->). cbn. lia.
Qed.

(** ** Shrinking updates *)
Lemma quiet_step u s a : wavenumber s <> 0%R -> norm_ok s -> iterates_or_reads a ->
  let s' := perform u s a in
  (field s' = field s /\ prev_norm s' = prev_norm s) \/
  (prev_norm s' = Fin (change s s' * (wavenumber s * wavenumber s)) /\
   forall q, prev_norm s = Fin q -> (change s s' * (wavenumber s * wavenumber s) < q)%R).
Proof.
  intros Hk H Ha. destruct a; cbn [iterates_or_reads perform] in *; try contradiction.
  - destruct (next_cases s H) as [Hc|[(q & H1 & H2 & H3)|Hc]].
    + right. rewrite (next_accept s fresh Hc). cbn [fst].
      assert (change s (fst (next fresh s)) * (wavenumber s * wavenumber s) = norm (operators s) (update (operators s) (field s)))%R as E.
      { rewrite (change_accept s (update (operators s) (field s)) Hk); [field; exact Hk| |]; rewrite (next_accept s fresh Hc); reflexivity. }
      rewrite (next_accept s fresh Hc) in E. cbn [fst] in E. split; [cbn [prev_norm set_prev_norm]; f_equal; symmetry; exact E|].
      intros q Hq. rewrite E. destruct Hc as [Hc|(q' & Hc & _ & Hlt)]; rewrite Hc in Hq; [discriminate|]. injection Hq as <-. exact Hlt.
    + left. rewrite (next_reject s fresh q H1 H2 H3). cbn. rewrite H1. split; reflexivity.
    + left. rewrite (next_raise s fresh Hc). cbn. split; [reflexivity|]. reflexivity.
  - left. split; reflexivity.
  - left. destruct (read_residue_same s) as (r & ->). split; reflexivity.
Qed.

(** The stored norm bounds all later changes. *)
Lemma change_nonneg s s' : (0 <= change s s')%R.
Proof. apply sqrt_pos. Qed.
Lemma quiet_bound u l s a q : wavenumber s <> 0%R -> norm_ok s -> Forall iterates_or_reads l -> iterates_or_reads a ->
  prev_norm s = Fin q -> let s1 := history u l s in let s2 := perform u s1 a in
  (change s1 s2 = 0 \/ change s1 s2 * (wavenumber s * wavenumber s) < q)%R.
Proof.
  revert s q. induction l as [|b l IH]; intros s q Hk H Hl Ha Hq; cbn zeta.
  - cbn [history fold_left]. destruct (quiet_step u s a Hk H Ha) as [(H1 & H2)|(H1 & H2)].
    + left. apply change_same; [apply perform_wavenumber|exact H1].
    + right. apply H2. exact Hq.
  - inversion Hl as [|? ? Hb Hl']; subst. rewrite history_cons.
    assert (wavenumber (perform u s b) = wavenumber s) as Ew by apply perform_wavenumber.
    destruct (quiet_step u s b Hk H Hb) as [(H1 & H2)|(H1 & H2)].
    + rewrite Hq in H2. pose proof (IH (perform u s b) q) as IH'. rewrite Ew in IH'. apply IH'; try assumption. apply norm_ok_perform; exact H.
    + pose proof (IH (perform u s b) _ ltac:(rewrite Ew; exact Hk) (norm_ok_perform u s b H) Hl' Ha H1) as IH'. cbn zeta in IH'.
      rewrite Ew in IH'. destruct IH' as [IH'|IH']; [left; exact IH'|right]. eapply Rlt_trans; [exact IH'|]. apply H2. exact Hq.
Qed.
Lemma shrinking u s a l b : wavenumber s <> 0%R -> norm_ok s -> iterates_or_reads a -> Forall iterates_or_reads l -> iterates_or_reads b ->
  let s1 := perform u s a in let s2 := history u l s1 in let s3 := perform u s2 b in
  change s s1 <> 0%R -> change s2 s3 <> 0%R -> (change s2 s3 < change s s1)%R.
Proof.
  intros Hk H Ha Hl Hb s1 s2 s3 H1 H2. destruct (quiet_step u s a Hk H Ha) as [(E1 & _)|(E1 & _)].
  - exfalso. apply H1. apply change_same; [apply perform_wavenumber|exact E1].
  - assert (wavenumber s1 = wavenumber s) as Ew by apply perform_wavenumber.
    pose proof (quiet_bound u l s1 b _ ltac:(rewrite Ew; exact Hk) (norm_ok_perform u s a H) Hl Hb E1) as Hq. cbn zeta in Hq. fold s2 s3 in Hq.
    rewrite Ew in Hq. destruct Hq as [Hq|Hq]; [contradiction|]. apply Rmult_lt_reg_r in Hq; [exact Hq|apply k2_pos, Hk].
Qed.

(** ** The problem that is solved *)
Lemma with_source_prepare g v m alpha beta eps xi zeta mu S S' : snd alpha <> 0%R -> beta <> 0%R ->
  with_source (prepare g v m alpha beta eps xi zeta mu S) S' = prepare g v m alpha beta eps xi zeta mu S'.
Proof. intros Ha Hb. rewrite !prepare_precondition by assumption. reflexivity. Qed.
Lemma prepare_alpha g v m alpha beta eps xi zeta mu S : o_alpha (prepare g v m alpha beta eps xi zeta mu S) = alpha.
Proof. reflexivity. Qed.
Lemma source_prepare g v m alpha beta eps xi zeta mu S c p : snd alpha <> 0%R -> beta <> 0%R ->
  source_distribution (prepare g v m alpha beta eps xi zeta mu S) c p = S c p.
Proof. intros Ha Hb. apply (source_history g v m alpha beta eps xi zeta mu S [] c p Ha Hb). constructor. Qed.

Lemma poses_perform u pb s a : well_posed pb -> poses pb s -> keeps_material a ->
  poses (with_p_source pb (assigned_source u (p_k0 pb) (p_source pb) a)) (perform u s a).
Proof.
  intros (Hs & Hb) (alpha & Ha & Hw & Ho) Hm.
  assert (with_p_source pb (p_source pb) = pb) as Epb by (destruct pb; reflexivity).
  destruct a; cbn [perform assigned_source keeps_material] in *; try contradiction; try rewrite Epb.
  - unfold next. set (s0 := set_residue _ None).
    assert (operators s0 = operators s /\ wavenumber s0 = wavenumber s) as (E1 & E2) by (unfold s0; destruct fresh; split; reflexivity).
    assert (poses pb s0) as H0 by (exists alpha; repeat split; [exact Ha|rewrite E2; exact Hw|rewrite E1; exact Ho]).
    destruct (prev_norm s0) as [q|]; [|exact H0]. destruct (Req_EM_T q 0); [exact H0|]. destruct (Rlt_dec _ 1); [exact H0|].
    exists (fst alpha, 15 / 10 * snd alpha)%R. cbn [snd fst]. split; [lra|]. split; [rewrite <- Hw, <- E2; reflexivity|].
    cbn [operators set_operators]. rewrite E1, Ho, prepare_alpha. apply update_prepare; cbn; (exact Ha || exact Hb || lra).
  - exists alpha. repeat split; assumption.
  - exists alpha. split; [exact Ha|]. split; [exact Hw|]. cbn [operators set_source set_prev_norm set_operators]. rewrite Ho.
    apply with_source_prepare; assumption.
  - exists alpha. split; [exact Ha|]. split; [exact Hw|]. cbn [operators set_j set_source set_prev_norm set_operators]. rewrite Ho.
    rewrite with_source_prepare by assumption. cbn [with_p_source p_source p_grid p_vectorial p_magnetic p_k0 p_beta p_eps p_xi p_zeta p_mu]. f_equal.
    apply vfield_ext. intros c p. unfold source_of_current, angular_frequency. rewrite Hw. rewrite !RtoC_mult. ring.
  - exists alpha. repeat split; assumption.
  - destruct (read_residue_same s) as (r & ->). exists alpha. repeat split; assumption.
Qed.
Lemma poses_history u pb l s : well_posed pb -> poses pb s -> Forall keeps_material l ->
  poses (with_p_source pb (last_source u (p_k0 pb) l (p_source pb))) (history u l s).
Proof.
  revert pb s. induction l as [|a l IH]; intros pb s Hw Hp Hl; cbn.
  - destruct pb; exact Hp.
  - inversion Hl as [|? ? Ha Hl']; subst.
    pose proof (IH (with_p_source pb (assigned_source u (p_k0 pb) (p_source pb) a)) (perform u s a) Hw (poses_perform u pb s a Hw Hp Ha) Hl') as H.
    exact H.
Qed.
Lemma poses_source pb s : well_posed pb -> poses pb s -> forall c p, get_source s c p = p_source pb c p.
Proof. intros (_ & Hb) (alpha & Ha & _ & Ho) c p. unfold get_source. rewrite Ho. apply source_prepare; assumption. Qed.

Lemma get_set_E s E : wavenumber s <> 0%R -> get_E (set_E s E) = E.
Proof.
  intros Hk. apply vfield_ext. intros c p. unfold get_E, set_E, electric_field. cbn. field. intros H. apply (f_equal fst) in H. cbn in H. nra.
Qed.
Lemma keep_field u l s : Forall keeps_field l -> get_E (history u l s) = get_E s.
Proof.
  revert s. induction l as [|a l IH]; intros s H; [reflexivity|]. inversion H as [|? ? Ha Hl]; subst. rewrite history_cons.
  rewrite (IH _ Hl). destruct a; cbn [keeps_field perform] in *; try contradiction; try reflexivity.
  destruct (read_residue_same s) as (r & ->). reflexivity.
Qed.
Lemma poses_j u pb s : physical u -> well_posed pb -> poses pb s ->
  forall c p, get_j u s c p = p_source pb c p / (- Ci * RtoC (p_k0 pb * c_light u * mu_0 u)).
Proof.
  intros Hu Hw Hp c p. unfold get_j, current_density. pose proof (poses_source pb s Hw Hp c p) as E. unfold get_source in E. rewrite E.
  destruct Hp as (alpha & _ & -> & _). unfold angular_frequency. rewrite !RtoC_mult. f_equal. ring.
Qed.
