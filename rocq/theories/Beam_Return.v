(** A beam that returns through all slices. *)
From Coq Require Import Reals List Arith Bool ZArith Lia Lra.
Require Import Verif.Base Verif.CSum Verif.Field Verif.Fourier_Model Verif.Fourier_Spec Verif.Fourier_Proofs Verif.Vec_Model Verif.Vec_Spec Verif.Vec_Proofs Verif.Modes_Model Verif.Modes_Proofs.
Require Import Verif.Beam_Model Verif.Beam_Spec Verif.Beam_Proofs Verif.Beam_Media Verif.Beam_Slices Verif.Beam_More Verif.Cplx.
Import ListNotations.
Local Open Scope R_scope.
Local Open Scope C_scope.

Section Return.
  Variables (b : setup) (k : R).
  Hypotheses (G : section_grid (bgrid b) (baxis b)) (K : (0 < k)%R) (BK : bk b = RtoC k) (One : bcomp b = 1%nat).
  Notation g := (bgrid b).
  Notation axis := (baxis b).
  Notation fi := (bfirst b).
  Notation sh := (bshape b).
  Definition ahead (x : R * option sfield) : Prop := (0 < fst x)%R /\ resolved (fst x) /\ noticed g (bn b) (snd x).
  Definition forth (s : section) (l : list (R * option sfield)) : section := run b s (there l).
  (** The state on the way back: as on the way there, or further back. *)
  Definition behind (s s' : section) : Prop := pending s' = pending s \/ ((pending s' <= 0)%R /\ resolved (pending s')).

  Lemma wave_backward s d m : (0 < d)%R -> resolved (pending s - d) -> noticed g (bn b) m -> seen b (wave b (move s (- d)) 0%nat) ->
    agree sh (wave b (propagate b s (- d) m) 0%nat) (match m with None => wave b (move s (- d)) 0%nat | Some n => transmit g fi (transmittance k (bn b) (- d) n) (wave b (move s (- d)) 0%nat) end) /\
    (pending (propagate b s (- d) m) = 0%R \/ pending (propagate b s (- d) m) = (pending s - d)%R).
  Proof.
    intros D P N V. destruct m as [n|].
    - rewrite propagate_backward by lra. assert (P' : resolved (pending (move s (- d)))) by exact P.
      assert (A : agree sh (wave b (move s (- d)) 0%nat) (read_ft b (move s (- d)) 0%nat)) by (intros q _; symmetry; apply read_exact; exact P').
      destruct (interact_scalar b G k BK One (move s (- d)) (- d) n P' N (seen_ext b _ _ A V)) as (_ & Q & W). split; [|exact Q].
      intros q Hq. rewrite (W q Hq). apply transmit_ext. intros q' Hq'. symmetry. apply A, Hq'.
    - rewrite propagate_none. destruct (Req_EM_T (- d) 0) as [E|E]; [lra|]. split; [intros q _; reflexivity|right; reflexivity].
  Qed.

  Lemma go_and_return l : forall s, (0 <= pending s)%R -> resolved (pending s) -> Forall ahead l ->
    (forall i, (i <= length l)%nat -> seen b (wave b (forth s (firstn i l)) 0%nat)) ->
    let s' := run b s (there l ++ back_again l) in agree sh (wave b s' 0%nat) (wave b s 0%nat) /\ behind s s'.
  Proof.
    induction l as [|(d & m) l IH]; intros s P0 P A V s'; [split; [intros q _; reflexivity|left; reflexivity]|].
    inversion A as [|? ? (D & R & N) A']; subst. cbn [fst snd] in *.
    set (s1 := propagate b s d m). pose proof (V 0%nat ltac:(cbn; lia)) as V0. cbn in V0.
    assert (s' = propagate b (run b s1 (there l ++ back_again l)) (- d) m) as E.
    { unfold s', back_again, there, run. cbn [map rev fst snd]. rewrite map_app. cbn [map fst snd app fold_left act]. fold s1. rewrite !fold_left_app. reflexivity. }
    destruct (slice_forward b k G K BK One s d m D P N V0) as [W1 Q1]. fold s1 in W1, Q1.
    assert (V1 : seen b (wave b s1 0%nat)). { specialize (V 1%nat ltac:(cbn; lia)). cbn in V. exact V. }
    assert (R1 : (/ 100000000 < d)%R) by (destruct R as [R|R]; [lra|rewrite Rabs_pos_eq in R by lra; exact R]).
    assert (P1 : (0 <= pending s1)%R /\ resolved (pending s1)).
    { destruct Q1 as [-> | ->]; (split; [lra|right; rewrite Rabs_pos_eq by lra; lra]). }
    destruct (IH s1 (proj1 P1) (proj2 P1) A') as [W2 B2].
    { intros i Hi. exact (V (Datatypes.S i) ltac:(cbn; lia)). }
    set (s2 := run b s1 (there l ++ back_again l)) in *.
    assert (P2 : resolved (pending s2 - d) /\ (pending s2 - d = pending s \/ pending s2 - d <= 0)%R).
    { destruct B2 as [-> | [B2 B3]].
      - destruct Q1 as [-> | ->].
        + replace (d - d)%R with 0%R by ring. split; [left; reflexivity|right; lra].
        + replace (pending s + d - d)%R with (pending s) by ring. split; [exact P|left; reflexivity].
      - split; [right; rewrite Rabs_left; lra|right; lra]. }
    assert (W3 : agree sh (wave b (move s2 (- d)) 0%nat) (match m with None => wave b s 0%nat | Some n => transmit g fi (transmittance k (bn b) d n) (wave b s 0%nat) end)).
    { intros q Hq. rewrite wave_move, (W2 q Hq), (W1 q Hq). rewrite (propagator_real b k) by assumption. destruct m as [n|]; cbn [through]; unfold split_step, diffract;
        rewrite <- Cmult_assoc, <- cis_plus; replace (d * axial g axis k q + - d * axial g axis k q)%R with 0%R by ring; rewrite cis_0; ring. }
    assert (V3 : seen b (wave b (move s2 (- d)) 0%nat)).
    { apply (seen_unmoved b k d). apply (seen_ext b (wave b s1 0%nat)); [|exact V1]. intros q Hq. rewrite (W1 q Hq).
      transitivity (diffract g axis k d (match m with None => wave b s 0%nat | Some n => transmit g fi (transmittance k (bn b) d n) (wave b s 0%nat) end) q); [destruct m; reflexivity|].
      apply diffract_ext; [|exact Hq]. intros q' Hq'. symmetry. apply W3, Hq'. }
    destruct (wave_backward s2 d m D (proj1 P2) N V3) as [W4 Q4]. rewrite E. split.
    - intros q Hq. rewrite (W4 q Hq). destruct m as [n|]; [|apply W3, Hq].
      rewrite (transmit_ext b _ _ _ q W3). apply (transmit_inverse b G _ _ _ (fun p _ => transmittance_inverse b k d n p) q Hq).
    - unfold behind. destruct Q4 as [-> | ->]; [right; split; [lra|left; reflexivity]|]. destruct P2 as [Pr [Pe|Pl]]; [left; exact Pe|right; split; assumption].
  Qed.

  Lemma forth_pending l : forall s, (0 <= pending s)%R -> resolved (pending s) -> Forall ahead l -> (0 <= pending (forth s l))%R /\ resolved (pending (forth s l)).
  Proof.
    induction l as [|(d & m) l IH]; intros s P0 P A; [split; assumption|]. inversion A as [|? ? (D & R & _) A']; subst. cbn [fst snd] in *.
    change (forth s ((d, m) :: l)) with (forth (propagate b s d m) l). assert (R1 : (/ 100000000 < d)%R) by (destruct R as [R|R]; [lra|rewrite Rabs_pos_eq in R by lra; exact R]).
    assert (Q : pending (propagate b s d m) = d \/ pending (propagate b s d m) = (pending s + d)%R).
    { rewrite propagate_forward by exact D. cbn [move pending]. destruct m as [n|]; [|right; reflexivity]. unfold interact. destruct (uniform b n); [destruct (tiny _); right; reflexivity|left]. rewrite set_field_pending. ring. }
    apply IH; [destruct Q as [-> | ->]; lra|right; destruct Q as [-> | ->]; rewrite Rabs_pos_eq by lra; lra|exact A'].
  Qed.
  Theorem retraced s F l : Forall (fun x => (0 < fst x)%R /\ resolved (fst x) /\ noticed g (bn b) (snd x)) l ->
    (forall i, (i <= length l)%nat -> seen b (read_ft b (run b s (SetFt F :: there (firstn i l))) 0%nat)) ->
    agree sh (read_ft b (run b s (SetFt F :: there l ++ back_again l)) 0%nat) (F 0%nat).
  Proof.
    intros A V. change (run b s (SetFt F :: there l ++ back_again l)) with (run b (set_ft b F) (there l ++ back_again l)). set (s0 := set_ft b F).
    assert (W0 : forall q, wave b s0 0%nat q = F 0%nat q) by (intros q; unfold wave, s0, set_ft; cbn [field_hat pending]; rewrite project_scalar, propagator_0 by exact One; ring).
    assert (P0 : (0 <= pending s0)%R) by apply Rle_refl. assert (P : resolved (pending s0)) by (left; reflexivity).
    destruct (go_and_return l s0 P0 P A) as [W B].
    { intros i Hi. apply (seen_ext b (read_ft b (run b s (SetFt F :: there (firstn i l))) 0%nat)); [|apply V, Hi]. intros q _.
      change (run b s (SetFt F :: there (firstn i l))) with (forth s0 (firstn i l)). apply read_exact. apply forth_pending; try assumption. clear -A. revert i. induction A; intros [|i]; cbn; constructor; auto. }
    intros q Hq. rewrite read_exact; [rewrite (W q Hq); apply W0|]. destruct B as [-> | [_ B]]; [left; reflexivity|exact B].
  Qed.
End Return.
