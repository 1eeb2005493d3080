(** Proofs about assignments that are interrupted. *)
From Coq Require Import Reals Lra Lia List Arith ZArith Bool FunctionalExtensionality.
Require Import Verif.Base Verif.Cplx Verif.CSum Verif.Field Verif.Fourier_Model Verif.Vec_Model Verif.Solver_Model Verif.Derived_Model Verif.Run_Model Verif.Interrupt_Spec Verif.Assign_Model Verif.Assign_Spec.
Import ListNotations.
Local Open Scope R_scope.
Local Open Scope C_scope.

(** ** All statements together *)
Lemma all_E s E : execute (assign_E s E) s = set_E s E.
Proof. reflexivity. Qed.
Lemma all_source s S : execute (assign_source S) s = set_source s S.
Proof. reflexivity. Qed.
Lemma all_epsilon s epsilon magnetic alpha beta : execute (assign_epsilon s epsilon magnetic alpha beta) s = set_epsilon s epsilon magnetic alpha beta.
Proof. reflexivity. Qed.

(** ** E and the source *)
Lemma cut_E s E k :
  (k = 0%nat /\ interrupted k (assign_E s E) s = s)
  \/ (k = 1%nat /\ interrupted k (assign_E s E) s = set_prev_norm (set_E s E) (prev_norm s))
  \/ ((2 <= k)%nat /\ interrupted k (assign_E s E) s = set_E s E).
Proof.
  destruct k as [|[|k]]; [left|right; left|right; right]; (split; [lia|]); unfold interrupted; cbn [firstn assign_E]; [reflexivity|reflexivity|].
  rewrite firstn_nil. reflexivity.
Qed.
Lemma cut_source s S k :
  (k = 0%nat /\ interrupted k (assign_source S) s = s)
  \/ (k = 1%nat /\ interrupted k (assign_source S) s = set_prev_norm (set_source s S) (prev_norm s))
  \/ ((2 <= k)%nat /\ interrupted k (assign_source S) s = set_source s S).
Proof.
  destruct k as [|[|k]]; [left|right; left|right; right]; (split; [lia|]); unfold interrupted; cbn [firstn assign_source]; [reflexivity|reflexivity|].
  rewrite firstn_nil. reflexivity.
Qed.
Lemma retry_E s E k : set_E (interrupted k (assign_E s E) s) E = set_E s E.
Proof. destruct (cut_E s E k) as [(_ & ->) | [(_ & ->) | (_ & ->)]]; reflexivity. Qed.
Lemma retry_source s S k : set_source (interrupted k (assign_source S) s) S = set_source s S.
Proof. destruct (cut_source s S k) as [(_ & ->) | [(_ & ->) | (_ & ->)]]; reflexivity. Qed.

(** ** The permittivity *)
Lemma cut_epsilon_many s epsilon magnetic alpha beta k : (18 <= k)%nat ->
  interrupted k (assign_epsilon s epsilon magnetic alpha beta) s = set_epsilon s epsilon magnetic alpha beta.
Proof. intro H. unfold interrupted. rewrite firstn_all2; [apply all_epsilon|]. cbn. lia. Qed.
Definition least (k : nat) : nat := Nat.min k 18.
Lemma cut_epsilon_least s epsilon magnetic alpha beta k :
  interrupted k (assign_epsilon s epsilon magnetic alpha beta) s = interrupted (least k) (assign_epsilon s epsilon magnetic alpha beta) s.
Proof.
  unfold least. destruct (Nat.le_gt_cases k 18) as [H|H]; [rewrite Nat.min_l by exact H; reflexivity|].
  rewrite Nat.min_r, !cut_epsilon_many by lia. reflexivity.
Qed.
Ltac cases_least k := assert (HK : (least k <= 18)%nat) by (unfold least; lia); rewrite cut_epsilon_least; destruct (least k) as [|[|[|[|[|[|[|[|[|[|[|[|[|[|[|[|[|[|[|?]]]]]]]]]]]]]]]]]]]; [..|lia].

Lemma cut_epsilon_E s epsilon magnetic alpha beta k :
  let t := interrupted k (assign_epsilon s epsilon magnetic alpha beta) s in
  get_E t = get_E s /\ wavenumber t = wavenumber s /\ bound_chi t = bound_chi s /\ iteration t = iteration s
  /\ o_grid (operators t) = o_grid (operators s) /\ o_vectorial (operators t) = o_vectorial (operators s).
Proof. cbv zeta. cases_least k; repeat split; reflexivity. Qed.

Definition product_of (o : ops) : C := RtoC (o_beta o) * im (o_alpha o).
Lemma source_read o c p : source_distribution o c p = o_source o c p * (product_of o / Ci).
Proof. unfold source_distribution, product_of. unfold Cdiv. ring. Qed.

Section Source.
  Variables (s : solution) (epsilon : tensor) (magnetic : bool) (alpha : C) (beta : R).
  Hypotheses (Ha : snd alpha <> 0%R) (Hb : beta <> 0%R) (Hs : snd (o_alpha (operators s)) <> 0%R) (Hsb : o_beta (operators s) <> 0%R).
  Let t k := interrupted k (assign_epsilon s epsilon magnetic alpha beta) s.

  Lemma im_nonzero (z : C) : snd z <> 0%R -> im z <> 0.
  Proof using Type. clear. intros H E. apply H. apply (f_equal fst) in E. exact E. Qed.
  Lemma Ci_nonzero : Ci <> 0.
  Proof using Type. clear. intro E. apply (f_equal snd) in E. cbn in E. lra. Qed.
  Lemma real_nonzero (x : R) : x <> 0%R -> RtoC x <> 0.
  Proof using Type. clear. intros H E. apply H. apply (f_equal fst) in E. exact E. Qed.

  Lemma cut_epsilon_source k c p :
    get_source (t k) c p =
    (if Nat.leb k 1 then 1
     else if Nat.leb k 2 then RtoC beta / RtoC (o_beta (operators s))
     else if Nat.leb k 8 then RtoC beta * im alpha / (RtoC (o_beta (operators s)) * im (o_alpha (operators s)))
     else 1) * get_source s c p.
  Proof using Ha Hb Hs Hsb.
    pose proof (im_nonzero _ Ha). pose proof (im_nonzero _ Hs). pose proof (real_nonzero _ Hb). pose proof (real_nonzero _ Hsb). pose proof Ci_nonzero.
    unfold t. unfold get_source, source_distribution.
    assert (D : (18 < k)%nat \/ (k <= 18)%nat) by lia. destruct D as [D|D].
    - rewrite cut_epsilon_many by lia. replace (Nat.leb k 1) with false by (symmetry; apply Nat.leb_gt; lia).
      replace (Nat.leb k 2) with false by (symmetry; apply Nat.leb_gt; lia). replace (Nat.leb k 8) with false by (symmetry; apply Nat.leb_gt; lia).
      cbn [operators set_epsilon set_prev_norm set_operators prepare update_operators precondition o_source o_beta o_alpha get_source]. unfold get_source, source_distribution. field.
      repeat split; assumption.
    - do 19 (destruct k as [|k]; [cbn [Nat.leb]; cbn -[Cmult Cdiv im RtoC Ci]; unfold get_source, source_distribution; field; repeat split; assumption|]). lia.
  Qed.
End Source.

(** Assigning the permittivity keeps the source as it is read then. *)
Lemma epsilon_keeps_source s epsilon magnetic alpha beta c p : snd alpha <> 0%R -> beta <> 0%R ->
  get_source (set_epsilon s epsilon magnetic alpha beta) c p = get_source s c p.
Proof.
  intros Ha Hb. pose proof (im_nonzero _ Ha). pose proof (real_nonzero _ Hb). pose proof Ci_nonzero.
  unfold get_source at 1. unfold source_distribution. cbn [operators set_epsilon set_prev_norm set_operators prepare update_operators precondition o_source o_beta o_alpha].
  field. repeat split; assumption.
Qed.

(** ** Recovery in media that are not magnetic *)
Lemma plain_stored o : plain o ->
  stored_mu o = TScalar (fun _ => 1 / ((1 - 0) * RtoC (o_beta o))) /\ stored_xi o = TScalar (fun _ => 0) /\ stored_zeta o = TScalar (fun _ => 0).
Proof.
  intros (Hm & f & Hf & H0). unfold stored_xi, stored_zeta, stored_mu. rewrite Hm, Hf. split; [|split; reflexivity].
  cbn [tscale tinv tfirst] in *. rewrite H0. f_equal. extensionality p. f_equal. f_equal. f_equal. ring.
Qed.
Lemma replaced_same s t epsilon magnetic alpha beta S :
  wavenumber t = wavenumber s -> bound_chi t = bound_chi s -> field t = field s -> iteration t = iteration s -> residue_cache t = residue_cache s ->
  o_grid (operators t) = o_grid (operators s) -> o_vectorial (operators t) = o_vectorial (operators s) ->
  stored_mu (operators t) = stored_mu (operators s) -> stored_xi (operators t) = stored_xi (operators s) -> stored_zeta (operators t) = stored_zeta (operators s) ->
  set_source (set_epsilon t epsilon magnetic alpha beta) S = set_source (set_epsilon s epsilon magnetic alpha beta) S.
Proof.
  intros E1 E2 E3 E4 E5 E6 E7 E8 E9 E10. unfold set_source, set_epsilon. rewrite E2, E6, E7, E8, E9, E10.
  unfold set_prev_norm, set_operators. cbn [wavenumber bound_chi operators field prev_norm iteration residue_cache].
  rewrite E1, E3, E4, E5, ?E2. unfold prepare, precondition, update_operators, with_source. reflexivity.
Qed.
(** What every statement preserves holds wherever the interruption comes. *)
Lemma firstn_preserves (P : solution -> Prop) l : Forall (fun f : statement => forall t, P t -> P (f t)) l -> forall k s, P s -> P (interrupted k l s).
Proof.
  unfold interrupted, execute. intros F. induction F as [|f l H F IH]; intros k s Hs.
  - rewrite firstn_nil. exact Hs.
  - destruct k as [|k]; [exact Hs|]. cbn [firstn fold_left]. apply IH, H, Hs.
Qed.
Definition plain_on (g : raster) (b : R) (o : ops) : Prop :=
  o_magnetic o = false /\ o_beta o = b /\ o_grid o = g /\ exists f, o_chiHH o = TScalar f /\ f (repeat 0%nat (rndim g)) = 0.
Lemma cut_epsilon_plain s epsilon alpha k : plain (operators s) -> o_beta (operators s) <> 0%R ->
  let t := interrupted k (assign_epsilon s epsilon false alpha (o_beta (operators s))) s in plain (operators t) /\ o_beta (operators t) = o_beta (operators s).
Proof.
  intros Hp Hb. cbv zeta. pose proof (real_nonzero _ Hb) as Hb'. destruct (plain_stored _ Hp) as (M & X & Z). destruct Hp as (Hm & f & Hf & H0).
  set (b := o_beta (operators s)) in *. set (g := o_grid (operators s)) in *.
  assert (A : 1 + - (1 / RtoC b) * (1 / (1 / ((1 - 0) * RtoC b))) = 0).
  { assert (RtoC 1 <> 0) by (apply real_nonzero; lra). unfold Cdiv. rewrite !Cmult_1_l. replace ((1 - 0) * RtoC b) with (RtoC b) by ring.
    field. repeat split; assumption. }
  assert (G : plain_on g b (operators (interrupted k (assign_epsilon s epsilon false alpha b) s))).
  { apply (firstn_preserves (fun t => plain_on g b (operators t))).
    - unfold assign_epsilon. rewrite M. unfold prepare_statements, assign_source, update_statements. cbn [app].
      repeat (apply Forall_cons; [intros u (U1 & U2 & U3 & h & U4 & U5)|]); [..|apply Forall_nil];
        unfold plain_on, change, set_operators, set_prev_norm, with_source, put_magnetic, put_beta, put_alpha, put_source, put_EE, put_EH, put_HE, put_HH, put_chi;
        cbn [operators o_magnetic o_beta o_grid o_chiHH];
        (refine (conj _ (conj _ (conj _ _))); [first [assumption | reflexivity] | first [assumption | reflexivity] | assumption |]);
        try (exists h; split; assumption).
      + eexists. split; [reflexivity|]. cbv beta. rewrite A. ring.
      + rewrite U4. eexists. split; [reflexivity|]. cbv beta. rewrite U5. ring.
    - refine (conj Hm (conj eq_refl (conj eq_refl _))). exists f. split; assumption. }
  destruct G as (G1 & G2 & G3 & h & G4 & G5). split; [|exact G2]. split; [exact G1|]. exists h. split; [exact G4|]. cbn [tfirst]. rewrite G3. exact G5.
Qed.
Lemma recovery s epsilon alpha S k : plain (operators s) -> o_beta (operators s) <> 0%R ->
  let beta := o_beta (operators s) in
  let t := interrupted k (assign_epsilon s epsilon false alpha beta) s in
  set_source (set_epsilon t epsilon false alpha beta) S = set_source (set_epsilon s epsilon false alpha beta) S.
Proof.
  intros Hp Hb beta t. destruct (cut_epsilon_plain s epsilon alpha k Hp Hb) as (Ht & Hbt). fold beta in Ht, Hbt. fold t in Ht, Hbt.
  destruct (plain_stored _ Hp) as (M & X & Z). destruct (plain_stored _ Ht) as (Mt & Xt & Zt).
  destruct (cut_epsilon_E s epsilon false alpha beta k) as (_ & E1 & E2 & E3 & E4 & E5). fold t in E1, E2, E3, E4, E5.
  assert (E6 : field t = field s /\ residue_cache t = residue_cache s) by (unfold t; cases_least k; split; reflexivity). destruct E6 as (E6 & E7).
  rewrite Hbt in Mt. change (RtoC beta) with (RtoC (o_beta (operators s))) in Mt.
  apply replaced_same; congruence.
Qed.

(** ** The first iteration after an interrupted assignment *)
Lemma next_accepts fresh s : prev_norm s = Inf ->
  field (fst (next fresh s)) = next_field (operators s) (field s) /\ operators (fst (next fresh s)) = operators s.
Proof. intro H. unfold next. destruct fresh; cbn [prev_norm set_residue set_iteration]; rewrite H; split; reflexivity. Qed.
Lemma next_refuses fresh s : refuses s ->
  field (fst (next fresh s)) = field s /\ o_alpha (operators (fst (next fresh s))) = (fst (o_alpha (operators s)), (15 / 10 * snd (o_alpha (operators s)))%R).
Proof.
  unfold refuses. intro H. destruct (prev_norm s) as [q|] eqn:Q; [|contradiction]. destruct H as (H1 & H2).
  unfold next. destruct fresh; cbn [prev_norm set_residue set_iteration operators field]; rewrite Q; (destruct (Req_EM_T q 0) as [E|_]; [contradiction|]);
    (destruct (Rlt_dec _ 1) as [L|_]; [contradiction|]); split; reflexivity.
Qed.
Lemma E_refused fresh s E : refuses (interrupted 1 (assign_E s E) s) ->
  let t := interrupted 1 (assign_E s E) s in
  get_E (fst (next fresh t)) = get_E t /\ snd (o_alpha (operators (fst (next fresh t)))) = (15 / 10 * snd (o_alpha (operators s)))%R
  /\ field (fst (next fresh (set_E s E))) = next_field (operators s) (field t) /\ operators (fst (next fresh (set_E s E))) = operators s.
Proof.
  intros H t. destruct (next_refuses fresh t H) as (A & B). destruct (next_accepts fresh (set_E s E) eq_refl) as (C1 & C2).
  refine (conj _ (conj _ (conj C1 C2))).
  - unfold get_E, electric_field. rewrite A. unfold next. destruct fresh, (prev_norm _) as [q|]; cbn [prev_norm set_residue set_iteration]; try reflexivity;
      destruct (Req_EM_T q 0); try reflexivity; destruct (Rlt_dec _ 1); reflexivity.
  - rewrite B. reflexivity.
Qed.
