(** Proofs about the residue and about solve. *)
From Coq Require Import Reals Lra Lia List Arith ZArith Bool.
Require Import Verif.Base Verif.Cplx Verif.CSum Verif.Field Verif.Fourier_Model Verif.Fourier_Spec Verif.Fourier_Proofs.
Require Import Verif.Vec_Model Verif.Vec_Spec Verif.Vec_Proofs Verif.Solver_Model Verif.Solver_Spec Verif.Solver_Proofs Verif.Solver_Convergence Verif.Solver_Choice.
Require Import Verif.Derived_Model Verif.Derived_Spec Verif.Derived_Tensor Verif.Run_Model Verif.Run_Spec Verif.Run_Proofs.
Import ListNotations.
Local Open Scope R_scope.
Local Open Scope C_scope.

(** ** The residue *)
Lemma magnitude_E s : wavenumber s <> 0%R -> magnitude s (get_E s) = (norm (operators s) (field s) / (wavenumber s * wavenumber s))%R.
Proof. intros Hk. rewrite magnitude_norm. apply norm_electric. exact Hk. Qed.
Lemma calculate_is s r : wavenumber s <> 0%R -> norm_ok s -> calculate_residue s = Ok r -> residue_is s r.
Proof.
  intros Hk Hn. pose proof (k2_pos _ Hk) as Hp. unfold calculate_residue, residue_is, previous_update_norm, norm_ok in *. rewrite magnitude_E by exact Hk.
  assert (norm (operators s) (field s) <> 0%R -> (norm (operators s) (field s) / (wavenumber s * wavenumber s) <> 0)%R) as Hd.
  { intros H E. apply H. apply (Rmult_eq_compat_r (wavenumber s * wavenumber s)) in E. unfold Rdiv in E. rewrite Rmult_assoc, Rinv_l in E by lra. lra. }
  destruct (prev_norm s) as [x|].
  - destruct (Rlt_dec 0 x).
    + destruct (Req_EM_T _ 0); [discriminate|]. intros [= <-]. right. split; [|split; [apply Hd; assumption|]].
      * apply Rmult_lt_0_compat; [assumption|apply Rinv_0_lt_compat; exact Hp].
      * field. split; [exact Hk|assumption].
    + intros [= <-]. left. split; [|reflexivity]. assert (x = 0)%R as -> by lra. unfold Rdiv. ring.
  - destruct (Req_EM_T _ 0); [discriminate|]. intros [= <-]. apply Hd. assumption.
Qed.
Definition cache_ok (s : solution) : Prop := match residue_cache s with None => True | Some r => calculate_residue s = Ok r end.
Lemma calculate_set_iteration s i : calculate_residue (set_iteration s i) = calculate_residue s.
Proof. reflexivity. Qed.
Lemma calculate_set_residue s i : calculate_residue (set_residue s i) = calculate_residue s.
Proof. reflexivity. Qed.
Lemma next_cache s fresh : residue_cache (fst (next fresh s)) = None.
Proof.
  unfold next. destruct fresh; cbn; destruct (prev_norm s); cbn; try reflexivity;
  (destruct (Req_EM_T _ _); [reflexivity|]); destruct (Rlt_dec _ _); reflexivity.
Qed.
Lemma cache_ok_perform u s a : cache_ok s -> iterates_or_reads a -> cache_ok (perform u s a).
Proof.
  intros H Ha. destruct a; cbn [perform iterates_or_reads] in *; try contradiction.
  - unfold cache_ok. rewrite next_cache. exact I.
  - exact H.
  - unfold cache_ok, read_residue in *. destruct (residue_cache s) as [r|] eqn:E; cbn; [rewrite E; exact H|].
    destruct (calculate_residue s) as [r|] eqn:E'; cbn; [rewrite calculate_set_residue; exact E'|rewrite E; exact I].
Qed.
Lemma cache_ok_history u l s : cache_ok s -> Forall iterates_or_reads l -> cache_ok (history u l s).
Proof.
  revert s. induction l as [|a l IH]; intros s H Hl; [exact H|]. inversion Hl; subst. rewrite history_cons. apply IH; [apply cache_ok_perform; assumption|assumption].
Qed.
Lemma read_is s r : wavenumber s <> 0%R -> norm_ok s -> cache_ok s -> snd (read_residue s) = Ok r -> residue_is s r.
Proof.
  intros Hk Hn Hc. unfold read_residue, cache_ok in *. destruct (residue_cache s) as [x|].
  - cbn. intros [= <-]. apply calculate_is; assumption.
  - destruct (calculate_residue s) as [x|] eqn:E; cbn; [|discriminate]. intros [= <-]. apply calculate_is; assumption.
Qed.
Lemma residue_current u fresh l s r : wavenumber s <> 0%R -> norm_ok s -> Forall iterates_or_reads l ->
  let s' := history u (ONext fresh :: l) s in snd (read_residue s') = Ok r -> residue_is s' r.
Proof.
  intros Hk Hn Hl s' H. unfold s' in *. rewrite history_cons in *. apply read_is; try exact H.
  - rewrite history_wavenumber, perform_wavenumber. exact Hk.
  - apply norm_ok_history, norm_ok_perform, Hn.
  - apply cache_ok_history; [|exact Hl]. unfold cache_ok. cbn [perform]. rewrite next_cache. exact I.
Qed.
Lemma next_finite s fresh s1 : norm_ok s -> next fresh s = (s1, None) -> exists x, prev_norm s1 = Fin x.
Proof.
  intros Hn H. destruct (next_cases s Hn) as [Hc|[(q & H1 & H2 & H3)|Hc]].
  - rewrite (next_accept s fresh Hc) in H. injection H as <-. eexists; reflexivity.
  - rewrite (next_reject s fresh q H1 H2 H3) in H. injection H as <-. exists q. exact H1.
  - rewrite (next_raise s fresh Hc) in H. discriminate.
Qed.
Lemma residue_stale s fresh s1 r E : norm_ok s -> next fresh s = (s1, None) -> snd (read_residue s1) = Ok r ->
  let s2 := set_E (fst (read_residue s1)) E in snd (read_residue s2) = Ok r /\ forall r', residue_is s2 r' -> r' <> r.
Proof.
  intros Hn H Hr s2. destruct (next_finite s fresh s1 Hn H) as (x & Hx).
  assert (residue_cache s1 = None) as Hc by (pose proof (next_cache s fresh) as Hc; rewrite H in Hc; exact Hc).
  unfold read_residue in Hr. rewrite Hc in Hr. destruct (calculate_residue s1) as [r1|] eqn:E1; [|discriminate]. cbn in Hr. injection Hr as ->.
  assert (fst (read_residue s1) = set_residue s1 (Some r)) as Es by (unfold read_residue; rewrite Hc, E1; reflexivity).
  unfold s2. rewrite Es. split; [reflexivity|]. intros r' Hr' ->.
  unfold residue_is, previous_update_norm in Hr'. cbn in Hr'. destruct r as [y|]; [contradiction|].
  unfold calculate_residue in E1. rewrite Hx in E1. destruct (Rlt_dec 0 x); [|discriminate]. destruct (Req_EM_T _ _); discriminate.
Qed.

(** ** The loop of solve *)
Section Loop.
  Context {W : Type}.
  Variable cb : callback W.
  (** Like [solve_run], for an iterator that may be in use already. *)
  Definition run_from (fresh : bool) (s0 : solution) (w0 : W) (n : nat) (before after : nat -> solution) (world : nat -> W) : Prop :=
    before 0%nat = s0 /\ world 0%nat = w0 /\ (1 <= n)%nat /\
    forall i, (i < n)%nat ->
      next (if Nat.eqb i 0 then fresh else false) (before i) = (after i, None) /\
      cb (world i) (after i) = (world (i + 1)%nat, before (i + 1)%nat, Ok (negb (Nat.eqb (i + 1) n))).

  Lemma loop_returns fuel : forall fresh w s w' s', loop fuel cb fresh w s = Some (Returned w' s') ->
    exists n before after world, (n <= fuel)%nat /\ run_from fresh s w n before after world /\ world n = w' /\ before n = s'.
  Proof.
    induction fuel as [|fuel IH]; intros fresh w s w' s' H; [discriminate|]. cbn [loop] in H.
    destruct (next fresh s) as [s1 [e|]] eqn:E1; [discriminate|]. destruct (cb w s1) as [[w2 s2] [[|]|e]] eqn:E2; [| |discriminate].
    - destruct (IH _ _ _ _ _ H) as (n & before & after & world & Hn & (H1 & H2 & H3 & H4) & H5 & H6).
      exists (Datatypes.S n), (fun i => match i with O => s | Datatypes.S i => before i end), (fun i => match i with O => s1 | Datatypes.S i => after i end),
        (fun i => match i with O => w | Datatypes.S i => world i end).
      split; [lia|]. split; [|split; assumption]. split; [reflexivity|]. split; [reflexivity|]. split; [lia|].
      intros [|i] Hi.
      + cbn [Nat.eqb Nat.add]. rewrite H1, H2. split; [exact E1|]. rewrite E2. destruct n; [lia|reflexivity].
      + destruct (H4 i ltac:(lia)) as (H7 & H8). cbn [Nat.add].
        split; [destruct i as [|i]; cbn [Nat.eqb] in *; exact H7|exact H8].
    - injection H as <- <-. exists 1%nat, (fun i => match i with O => s | _ => s2 end), (fun _ => s1), (fun i => match i with O => w | _ => w2 end).
      split; [lia|]. split; [|split; reflexivity]. split; [reflexivity|]. split; [reflexivity|]. split; [lia|].
      intros [|i] Hi; [|lia]. cbn. split; assumption.
  Qed.
  Lemma run_loop n : forall fuel fresh w s before after world, (n <= fuel)%nat -> run_from fresh s w n before after world ->
    loop fuel cb fresh w s = Some (Returned (world n) (before n)).
  Proof.
    induction n as [|n IH]; intros fuel fresh w s before after world Hf (H1 & H2 & H3 & H4); [lia|]. destruct fuel as [|fuel]; [lia|].
    destruct (H4 0%nat ltac:(lia)) as (H5 & H6). cbn [Nat.eqb] in H5. rewrite H1 in H5. rewrite H2 in H6. cbn [loop]. rewrite H5, H6.
    cbn [Nat.add Nat.eqb]. destruct n as [|n]; cbn [Nat.eqb negb]; [reflexivity|].
    apply (IH fuel false (world 1%nat) (before 1%nat) (fun i => before (Datatypes.S i)) (fun i => after (Datatypes.S i)) (fun i => world (Datatypes.S i))); [lia|].
    split; [reflexivity|]. split; [reflexivity|]. split; [lia|]. intros i Hi. destruct (H4 (Datatypes.S i) ltac:(lia)) as (H7 & H8).
    cbn [Nat.eqb Nat.add] in *. split; [destruct (Nat.eqb i 0); exact H7|exact H8].
  Qed.
  Lemma run_from_solve s w n before after world : run_from true s w n before after world <-> solve_run cb s w n before after world.
  Proof.
    unfold run_from, solve_run. split; intros (H1 & H2 & H3 & H4); repeat split; try assumption; try (apply H4; assumption);
    destruct (H4 i ltac:(assumption)) as (H5 & _); destruct (Nat.eqb i 0); assumption.
  Qed.
  Lemma solve_returns_iff s w w' s' : (exists fuel, loop fuel cb true w s = Some (Returned w' s')) <->
    exists n before after world, solve_run cb s w n before after world /\ world n = w' /\ before n = s'.
  Proof.
    split.
    - intros (fuel & H). destruct (loop_returns _ _ _ _ _ _ H) as (n & before & after & world & _ & Hr & Hw & Hs).
      exists n, before, after, world. rewrite <- run_from_solve. auto.
    - intros (n & before & after & world & Hr & <- & <-). exists n. apply (run_loop n n true w s before after world (le_n _)). apply run_from_solve. exact Hr.
  Qed.
  Lemma loop_more fuel : forall fresh w s out, loop fuel cb fresh w s = Some out -> forall k, loop (fuel + k) cb fresh w s = Some out.
  Proof.
    induction fuel as [|fuel IH]; intros fresh w s out H k; [discriminate|]. cbn [loop Nat.add] in *.
    destruct (next fresh s) as [s1 [e|]]; [exact H|]. destruct (cb w s1) as [[w2 s2] [[|]|e]]; try exact H. apply IH. exact H.
  Qed.

  (** The counter during a run, for callbacks that leave it alone. *)
  Lemma run_count s w n before after world : (forall (w : W) (s : solution), iteration (snd (fst (cb w s))) = iteration s) -> solve_run cb s w n before after world ->
    forall i, (i < n)%nat -> iteration (after i) = Z.of_nat (i + 1).
  Proof.
    intros Hc (H1 & H2 & H3 & H4). induction i as [|i IH]; intros Hi.
    - destruct (H4 0%nat Hi) as (H5 & _). pose proof (next_iteration (before 0%nat) true) as E. cbn [Nat.eqb] in H5. rewrite H5 in E. exact E.
    - destruct (H4 (Datatypes.S i) Hi) as (H5 & _). destruct (H4 i ltac:(lia)) as (_ & H6). pose proof (Hc (world i) (after i)) as E. rewrite H6 in E. cbn [fst snd] in E.
      pose proof (next_iteration (before (Datatypes.S i)) false) as E2. cbn [Nat.eqb] in H5. rewrite H5 in E2. cbn [fst] in E2. rewrite E2.
      replace (Datatypes.S i) with (i + 1)%nat by lia. rewrite E, IH by lia. lia.
  Qed.
End Loop.

Lemma limits_iteration {W} maxiter rtol (w : W) s : iteration (snd (fst (limits maxiter rtol w s))) = iteration s.
Proof.
  unfold limits. destruct (match maxiter with None => true | Some m => (iteration s <? m)%Z end); [|reflexivity].
  destruct (read_residue s) as [s' [[x|]|e]] eqn:E; cbn; destruct (read_residue_same s) as (r & Hr); rewrite E in Hr; cbn in Hr; rewrite Hr; reflexivity.
Qed.
(** With a finite maximum the loop always ends. *)
Lemma limits_end {W} m rtol fuel : forall (fresh : bool) (w : W) s, (1 <= fuel)%nat ->
  (m <= Z.of_nat fuel + (if fresh then 0 else iteration s))%Z -> loop fuel (limits (Some m) rtol) fresh w s <> None.
Proof.
  induction fuel as [|fuel IH]; intros fresh w s Hf Hm; [lia|]. cbn [loop].
  pose proof (next_iteration s fresh) as E. destruct (next fresh s) as [s1 [e|]]; [discriminate|]. cbn [fst] in E.
  pose proof (limits_iteration (Some m) rtol w s1) as E2. destruct (limits (Some m) rtol w s1) as [[w2 s2] [[|]|e]] eqn:E3; try discriminate.
  cbn [fst snd] in E2. destruct fuel as [|fuel].
  - exfalso. unfold limits in E3. rewrite E in E3. destruct (Z.ltb_spec ((if fresh then 0 else iteration s) + 1) m); [lia|]. discriminate.
  - apply IH; [lia|]. rewrite E2, E. lia.
Qed.

(** What the limits test. *)
Lemma limits_result {W} maxiter rtol (w : W) s w' s' b : limits maxiter rtol w s = (w', s', Ok b) -> (b = false <-> limit_reached maxiter rtol s).
Proof.
  unfold limits, limit_reached. destruct (match maxiter with None => true | Some m => (iteration s <? m)%Z end) eqn:Em.
  - assert (~ exists m, maxiter = Some m /\ (m <= iteration s)%Z) as Hno.
    { intros (m & -> & H). apply Z.ltb_lt in Em. lia. }
    destruct (read_residue s) as [s1 [[x|]|e]]; cbn [snd]; intros [= <- <- <-].
    + destruct (Rlt_dec rtol x) as [Hx|Hx]; split; intros H; try discriminate; try reflexivity.
      * exfalso. destruct H as [H|(y & [= <-] & H)]; [exact (Hno H)|lra].
      * right. exists x. split; [reflexivity|lra].
    + split; intros H; [discriminate|]. exfalso. destruct H as [H|(y & [=] & _)]. exact (Hno H).
  - intros [= <- <- <-]. split; [intros _|reflexivity]. left. destruct maxiter as [m|]; [|discriminate]. exists m. split; [reflexivity|].
    apply Z.ltb_ge. exact Em.
Qed.
Lemma limits_run {W} maxiter rtol s (w : W) n before after world : solve_run (limits maxiter rtol) s w n before after world ->
  (forall i, (i < n)%nat -> iteration (after i) = Z.of_nat (i + 1)) /\
  (forall i, (i < n)%nat -> (limit_reached maxiter rtol (after i) <-> (i + 1 = n)%nat)).
Proof.
  intros H. split; [apply (run_count (limits maxiter rtol) s w n before after world (limits_iteration maxiter rtol) H)|].
  intros i Hi. destruct H as (_ & _ & _ & H4). destruct (H4 i Hi) as (_ & H5). rewrite <- (limits_result _ _ _ _ _ _ _ H5).
  destruct (Nat.eqb_spec (i + 1) n); cbn; split; congruence.
Qed.
