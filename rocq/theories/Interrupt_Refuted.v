(** Interruptions of an iteration of which the update is refused. *)
From Coq Require Import Reals Lra Lia List Arith ZArith Bool.
Require Import Verif.Base Verif.Cplx Verif.CSum Verif.Field Verif.Fourier_Model Verif.Vec_Model Verif.Vec_Spec Verif.Vec_Proofs Verif.Solver_Model Verif.Solver_Spec Verif.Solver_Convergence Verif.Choice_Model Verif.Choice_Construct Verif.Choice_Gain Verif.Derived_Model Verif.Run_Model Verif.Run_Spec.
Require Import Verif.Memory_Model Verif.Memory_Spec Verif.Memory_Proofs Verif.Memory_Steps Verif.Memory_Reads Verif.Memory_Sessions Verif.Interrupt_Model Verif.Interrupt_Spec Verif.Interrupt_Proofs Verif.Interrupt_Steps Verif.Interrupt_Results.
Import ListNotations.
Local Open Scope R_scope.
Local Open Scope C_scope.

Lemma stops_later {A B} (p : prog A) (q : A -> prog B) : forall m m', (let (a, m1) := finish p m in stops (q a) m1 m') -> stops (seq p q) m m'.
Proof. induction p as [a|X f k IH]; intros m m' H; cbn in *; [exact H|]. right. destruct (f m) as [x m1]. apply IH. exact H. Qed.
Lemma stops_first {A} (p : prog A) m : stops p m m.
Proof. destruct p; cbn; [reflexivity|left; reflexivity]. Qed.
Lemma same_work h : same_but_work h h.
Proof. refine (conj eq_refl (conj eq_refl (conj eq_refl (conj eq_refl (fun _ _ _ _ => eq_refl))))). Qed.

Section Refused.
  Variables (lib : library) (aligned : loc -> bool) (junk : nat -> vfield) (u : si).
  (** After the first statement of __update_operators. *)
  Lemma refused_source (P : loc -> Prop) fresh m : safe P (mem m) -> P Field -> P Source -> refuses (solution_of m) -> snd (o_alpha (operators (solution_of m))) <> 0%R ->
    exists m', interruption lib aligned junk fresh m m' /\ get_E (solution_of m') = get_E (solution_of m) /\ get_epsilon (solution_of m') = get_epsilon (solution_of m) /\
      prev_norm (solution_of m') = prev_norm (solution_of m) /\ forall c p, get_source (solution_of m') c p = RtoC (2 / 3) * get_source (solution_of m) c p.
  Proof.
    intros Hs PF PS Hr Ha. destruct m as [s h]. cbn [mem] in *. set (i := (if fresh then 1 else iteration s + 1)%Z).
    destruct (me_update lib aligned junk P h (operators s) Hs PF PS) as (d & h1 & E & L & V & _).
    pose proof (proj1 (proj2 L) Field PF) as EF. pose proof (proj1 (proj2 L) Source PS) as ES.
    set (alpha := (fst (o_alpha (operators s)), (15 / 10 * snd (o_alpha (operators s)))%R) : C). set (r := im (o_alpha (operators s)) / im alpha).
    exists {| rest := counted s i None; mem := write h1 Source (times (content h1 Source) r) |}. split; [|split; [|split; [|split]]].
    - eexists. split; [|split; [reflexivity|apply same_work]]. unfold next_p. apply stops_later.
      assert (exists s1, finish (if fresh then on_self (fun s => set_iteration s 0) else Done tt) {| rest := s; mem := h |} = (tt, {| rest := s1; mem := h |}) /\ counted s1 (iteration s1 + 1) None = counted s i None) as (s1 & -> & Es1).
      { subst i. destruct fresh; cbn; eexists; (split; [reflexivity|]); reflexivity. }
      apply stops_later. cbn [finish on_self rest mem]. apply stops_later. cbn [finish on_self rest mem].
      change (set_residue (set_iteration s1 (iteration s1 + 1)) None) with (counted s1 (iteration s1 + 1) None). rewrite Es1.
      apply stops_later. cbn [finish self rest]. apply stops_later. change (operators (counted s i None)) with (operators s). change (prev_norm (counted s i None)) with (prev_norm s).
      rewrite (update_mirrors lib aligned junk (operators s)). cbn [mem rest]. rewrite E. apply stops_later. cbn [finish on_arrays get mem rest].
      unfold refuses in Hr. change (prev_norm (solution_of {| rest := s; mem := h |})) with (prev_norm s) in Hr. destruct (prev_norm s) as [q|]; [|contradiction]. destruct Hr as (Hq & Hl).
      destruct (Req_EM_T q 0) as [Z|_]; [contradiction|]. destruct (Rlt_dec (norm (operators s) (content h1 d) / q) 1) as [Y|_].
      { exfalso. apply Hl. rewrite V in Y. exact Y. }
      cbn. right. left. reflexivity.
    - unfold get_E, solution_of. cbn [rest mem field with_arrays wavenumber counted set_residue set_iteration]. rewrite me_write_other by discriminate. rewrite EF. reflexivity.
    - reflexivity.
    - reflexivity.
    - intros c p. unfold get_source, source_distribution, solution_of. cbn [rest mem operators with_arrays o_source o_alpha o_beta counted set_residue set_iteration].
      rewrite me_write_same. rewrite ES. unfold times. change (operators (solution_of {| rest := s; mem := h |})) with (operators (with_arrays s (content h Field) (content h Source))) in Ha. cbn [operators with_arrays o_alpha] in Ha.
      assert (r = RtoC (2 / 3)) as ->. { unfold r, alpha, im. cbn [snd]. rewrite <- RtoC_div. - f_equal. field. exact Ha. - nra. }
      ring.
  Qed.
  (** Between the last two statements of an update that is accepted. *)
  Lemma accepted_field (P : loc -> Prop) fresh m : safe P (mem m) -> P Field -> P Source -> prev_norm (solution_of m) = Inf ->
    exists m', interruption lib aligned junk fresh m m' /\ field (solution_of m') = next_field (operators (solution_of m)) (field (solution_of m)) /\ prev_norm (solution_of m') = Inf.
  Proof.
    intros Hs PF PS Hr. destruct m as [s h]. cbn [mem] in *. set (i := (if fresh then 1 else iteration s + 1)%Z). change (prev_norm s = Inf) in Hr.
    destruct (me_update lib aligned junk P h (operators s) Hs PF PS) as (d & h1 & E & L & V & _).
    pose proof (proj1 (proj2 L) Field PF) as EF. pose proof (proj1 (proj2 L) Source PS) as ES.
    exists {| rest := counted s i None; mem := write h1 Field (plus (content h1 Field) (content h1 d)) |}. split; [|split].
    - eexists. split; [|split; [reflexivity|apply same_work]]. unfold next_p. apply stops_later.
      assert (exists s1, finish (if fresh then on_self (fun s => set_iteration s 0) else Done tt) {| rest := s; mem := h |} = (tt, {| rest := s1; mem := h |}) /\ counted s1 (iteration s1 + 1) None = counted s i None) as (s1 & -> & Es1).
      { subst i. destruct fresh; cbn; eexists; (split; [reflexivity|]); reflexivity. }
      apply stops_later. cbn [finish on_self rest mem]. apply stops_later. cbn [finish on_self rest mem].
      change (set_residue (set_iteration s1 (iteration s1 + 1)) None) with (counted s1 (iteration s1 + 1) None). rewrite Es1.
      apply stops_later. cbn [finish self rest]. apply stops_later. change (operators (counted s i None)) with (operators s). change (prev_norm (counted s i None)) with (prev_norm s).
      rewrite (update_mirrors lib aligned junk (operators s)). cbn [mem rest]. rewrite E. apply stops_later. cbn [finish on_arrays get mem rest]. rewrite Hr.
      cbn. right. left. reflexivity.
    - unfold solution_of. cbn [rest mem field with_arrays]. rewrite me_write_same. rewrite EF, V. reflexivity.
    - exact Hr.
  Qed.
End Refused.

(** A medium with gain in which the second update is refused. *)
Definition driven : ops := prepare (scaled 1 point) false false gain_alpha (/ 1) (tuniform (1, - (1 / 10))%R) tzero tzero (tuniform 1) (fun _ _ => 1).
Definition driven_start : solution := Run_Model.construct point false false 1 gain_alpha (/ 1) (tuniform (1, - (1 / 10))%R) tzero tzero (tuniform 1) (fun _ _ => 1) None (fun _ _ => 0).
Lemma driven_operators : operators driven_start = driven.
Proof. reflexivity. Qed.
Lemma driven_chi F c p : chi_op driven F c p = - F c p.
Proof. unfold driven, gain_alpha. cbn -[Rinv Rdiv Cmult Cplus Cdiv Copp Cminus]. destruct (F c p) as [x y]. unfold Ci, im, RtoC. apply injective_projections; cbn; field. Qed.
Definition driven_s : C := (0, - 20)%R.
Lemma driven_update F c : update driven F c [0%nat] = - (gain_G * (- F c [0%nat] + driven_s) - F c [0%nat]).
Proof.
  unfold update. rewrite driven_chi. unfold green_op. change (rshape (o_grid driven)) with [1%nat].
  rewrite convolve_point by (intros G; reflexivity). cbn beta. unfold g_ft_op. change (o_vectorial driven) with false. cbv iota. rewrite driven_chi.
  assert (E : g_scalar driven [0%nat] = gain_G).
  { unfold g_scalar. change (o_alpha driven) with gain_alpha. change (o_grid driven) with (scaled 1 point).
    assert (K : k2 (scaled 1 point) [0%nat] = 0%R) by (unfold k2, kvec, k_axis; cbn; field). rewrite K. unfold gain_alpha, gain_G, im, Ci. apply injective_projections; cbn; field. }
  assert (Es : o_source driven c [0%nat] = driven_s). { unfold driven, driven_s, gain_alpha, im, Ci. apply injective_projections; cbn; field. }
  rewrite E, Es. ring.
Qed.
Lemma driven_refused : refuses (fst (next true driven_start)) /\ snd (o_alpha (operators (fst (next true driven_start)))) <> 0%R /\ get_source (fst (next true driven_start)) 0%nat [0%nat] <> 0.
Proof.
  assert (forall F, norm driven F = Cmod (F 0%nat [0%nat])) as N.
  { intros F. unfold norm. change (vector_length driven) with 1%nat. change (rshape (o_grid driven)) with [1%nat]. rewrite vnorm2_point. rewrite sqrt_square; [reflexivity|apply Cmod_ge_0]. }
  set (d0 := update driven (field driven_start)). set (s1 := fst (next true driven_start)).
  assert (operators s1 = driven) as Ho by reflexivity. assert (prev_norm s1 = Fin (norm driven d0)) as Hp by reflexivity. assert (field s1 = fun c p => field driven_start c p + d0 c p) as Hf by reflexivity.
  assert (field driven_start 0%nat [0%nat] = 0) as F0 by (cbn; ring).
  assert (d0 0%nat [0%nat] = - (gain_G * driven_s)) as D0 by (unfold d0; rewrite driven_update, F0; ring).
  assert (update driven (field s1) 0%nat [0%nat] = - (gain_G * driven_s) * (1 + (1 + gain_G))) as D1.
  { rewrite driven_update, Hf. cbv beta. rewrite F0, D0. ring. }
  assert (gain_G * driven_s <> 0) as HN. { intros Z. apply (f_equal fst) in Z. unfold gain_G, driven_s in Z. cbn in Z. lra. }
  assert (0 < Cmod (gain_G * driven_s)%C)%R as HP by (apply Cmod_gt_0; exact HN).
  split; [|split].
  - unfold refuses. rewrite Hp, Ho, !N, D0, D1, Cmod_mult, !Cmod_opp. split; [lra|]. intros Hl.
    assert (1 <= Cmod (1 + (1 + gain_G))%C)%R as HB. { assert (1 <= Cmod (1 + (1 + gain_G))%C * Cmod (1 + (1 + gain_G))%C)%R by (rewrite Cmod_sq; unfold gain_G; cbn; nra). pose proof (Cmod_ge_0 (1 + (1 + gain_G))%C). nra. }
    apply (Rmult_lt_compat_r (Cmod (gain_G * driven_s))) in Hl; [|exact HP]. unfold Rdiv in Hl. rewrite Rmult_assoc, Rinv_l, Rmult_1_r in Hl by lra. nra.
  - rewrite Ho. cbn. lra.
  - unfold get_source, source_distribution. rewrite Ho. assert (o_source driven 0%nat [0%nat] = driven_s) as ->. { unfold driven, driven_s, gain_alpha, im, Ci. apply injective_projections; cbn; field. }
    intros Z. apply (f_equal fst) in Z. unfold driven_s, driven, Ci, im, gain_alpha in Z. cbn in Z. field_simplify in Z; lra.
Qed.
