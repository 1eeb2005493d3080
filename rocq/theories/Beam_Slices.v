(** Proofs about whole beams, time reversal, power and polarization. *)
From Coq Require Import Reals List Arith Bool ZArith Lia Lra Psatz FunctionalExtensionality.
Require Import Verif.Base Verif.CSum Verif.Field Verif.Fourier_Model Verif.Fourier_Spec Verif.Fourier_Proofs Verif.Vec_Model Verif.Vec_Spec Verif.Vec_Proofs Verif.Modes_Model Verif.Modes_Proofs.
Require Import Verif.Beam_Model Verif.Beam_Spec Verif.Beam_Proofs Verif.Beam_Media Verif.Cplx.
Import ListNotations.
Local Open Scope R_scope.
Local Open Scope C_scope.

Section Beams.
  Variables (b : setup) (k : R).
  Hypotheses (G : section_grid (bgrid b) (baxis b)) (K : (0 < k)%R) (BK : bk b = RtoC k) (One : bcomp b = 1%nat).
  Notation g := (bgrid b).
  Notation axis := (baxis b).
  Notation fi := (bfirst b).
  Notation sh := (bshape b).
  Notation thru := (through g fi axis k (bn b)).
  Notation specs := (spectra g fi axis k (bn b)).
  Definition seen (F : sfield) : Prop := bright sh F \/ extended b = false.

  Lemma diffract_ext d F F' : agree sh F F' -> agree sh (diffract g axis k d F) (diffract g axis k d F').
  Proof. intros E q Hq. unfold diffract. rewrite E by exact Hq. reflexivity. Qed.
  Lemma transmit_ext t F F' q : agree sh F F' -> transmit g fi t F q = transmit g fi t F' q.
  Proof. intros E. unfold transmit. apply (to_spectrum_ext b). intros p Hp. f_equal. apply (to_space_ext b). exact E. Qed.
  Lemma thru_ext d m F F' : agree sh F F' -> agree sh (thru d m F) (thru d m F').
  Proof. intros E. destruct m as [n|]; [|apply diffract_ext, E]. unfold through, split_step. apply diffract_ext. intros q Hq. apply transmit_ext, E. Qed.
  Lemma bright_ext F F' : agree sh F F' -> bright sh F -> bright sh F'.
  Proof. intros E (q & Hq & H). exists q. split; [exact Hq|]. rewrite <- (E q Hq). exact H. Qed.
  Lemma seen_ext F F' : agree sh F F' -> seen F -> seen F'.
  Proof. intros E [H|H]; [left; apply (bright_ext _ _ E H)|right; exact H]. Qed.
  Lemma wave_diffract s q : wave b s 0%nat q = diffract g axis k (pending s) (field_hat s 0%nat) q.
  Proof. unfold wave, diffract. rewrite (propagator_real b k) by assumption. reflexivity. Qed.
  Lemma propagate_forward s d m : (0 < d)%R -> propagate b s d m = move (match m with None => s | Some n => interact b s d n end) d.
  Proof. intros D. unfold propagate. rewrite (Rltb_false d 0), (Rltb_true 0 d) by lra. reflexivity. Qed.
  Notation proper_layer := (noticed g (bn b)).
  Lemma slice_forward s d m : (0 < d)%R -> resolved (pending s) -> proper_layer m -> seen (wave b s 0%nat) ->
    agree sh (wave b (propagate b s d m) 0%nat) (thru d m (wave b s 0%nat)) /\ (pending (propagate b s d m) = d \/ pending (propagate b s d m) = (pending s + d)%R).
  Proof.
    intros D P L V. rewrite propagate_forward by exact D. destruct m as [n|].
    - assert (agree sh (wave b s 0%nat) (read_ft b s 0%nat)) as A by (intros q _; symmetry; apply read_exact; exact P).
      destruct (interact_scalar b G k BK One s d n P L (seen_ext _ _ A V)) as (_ & Q & W). split.
      + intros q Hq. rewrite wave_move. unfold through, split_step, diffract. rewrite (propagator_real b k) by assumption. rewrite (W q Hq). f_equal. apply transmit_ext. intros q' Hq'. symmetry. apply A. exact Hq'.
      + cbn [move pending]. destruct Q as [-> | ->]; [left; ring|right; reflexivity].
    - split; [|right; reflexivity]. intros q Hq. rewrite wave_move. rewrite (propagator_real b k) by assumption. reflexivity.
  Qed.
  Lemma settle_resolved s : resolved (pending s) -> pending (settle b s) = 0%R.
  Proof. intros [H|H]; unfold settle; [rewrite H, Rabs_R0; destruct (tiny 0); [exact H|reflexivity]|apply tiny_false in H; rewrite H; reflexivity]. Qed.
  Lemma last_cons {A} (l : list A) (x d : A) : last (x :: l) d = last l x.
  Proof. revert x d. induction l as [|y l IH]; intros x d; [reflexivity|]. change (last (x :: y :: l) d) with (last (y :: l) d). rewrite (IH y d). symmetry. apply IH. Qed.
  Lemma beam_field_slices d : (0 < d)%R -> resolved d -> forall media s F, agree sh (wave b s 0%nat) F -> resolved (pending s) -> resolved (pending s + d) -> Forall proper_layer media -> Forall seen (F :: specs d media F) ->
    Forall2 (fun f F => agree sh (f 0%nat) (to_space g fi F)) (fst (beam_field b s d media)) (specs d media F) /\
    agree sh (wave b (snd (beam_field b s d media)) 0%nat) (last (specs d media F) F) /\ (media <> [] -> pending (snd (beam_field b s d media)) = 0%R).
  Proof.
    intros D RD. induction media as [|m media IH]; intros s F A P P' L V.
    { cbn. split; [constructor|split; [exact A|contradiction]]. }
    inversion L as [|? ? Lm L']; subst. cbn [spectra] in *. inversion V as [|? ? V0 V']; subst. inversion V' as [|? ? V1 V'']; subst.
    destruct (slice_forward s d m D P Lm (seen_ext _ _ (fun q Hq => eq_sym (A q Hq)) V0)) as [W Q].
    assert (resolved (pending (propagate b s d m))) as R1 by (destruct Q as [-> | ->]; assumption).
    assert (agree sh (wave b (propagate b s d m) 0%nat) (thru d m F)) as A1 by (intros q Hq; rewrite (W q Hq); apply thru_ext; assumption).
    assert (agree sh (wave b (settle b (propagate b s d m)) 0%nat) (thru d m F)) as A2 by (intros q Hq; rewrite wave_settle; apply A1; exact Hq).
    pose proof (settle_resolved _ R1) as Z.
    assert (resolved (pending (settle b (propagate b s d m)))) as R2 by (left; exact Z).
    assert (resolved (pending (settle b (propagate b s d m)) + d)) as R3 by (rewrite Z, Rplus_0_l; exact RD).
    destruct (IH _ _ A2 R2 R3 L' V') as (H1 & H2 & H3). cbn [beam_field fst snd]. split; [|split].
    - constructor; [|exact H1]. intros p Hp.
      assert (agree sh (read_ft b (propagate b s d m) 0%nat) (thru d m F)) as A3 by (intros q Hq; rewrite read_exact by exact R1; apply A1; exact Hq).
      rewrite read_field_space; [apply to_space_ext; exact A3|exact G|exact Hp|].
      destruct V1 as [V1|V1]; [left; apply (bright_visible b One); apply (bright_ext _ _ (fun q Hq => eq_sym (A3 q Hq)) V1)|right; exact V1].
    - rewrite last_cons. exact H2.
    - intros _. destruct media as [|m' media']; [exact Z|]. apply H3. discriminate.
  Qed.
  Lemma enter_state s first step : pending (enter b s first step) = (pending s + (first - step))%R /\ field_hat (enter b s first step) = field_hat s.
  Proof. unfold enter. rewrite propagate_none. destruct (Req_EM_T (first - step) 0) as [E|]; [rewrite E, Rplus_0_r; auto|auto]. Qed.
  Lemma beam_slices F first step media : (0 < step)%R -> resolved step -> resolved (first - step) -> resolved first -> Forall proper_layer media ->
    let F0 := diffract g axis k (first - step) (F 0%nat) in Forall seen (F0 :: specs step media F0) ->
    Forall2 (fun f F => agree sh (f 0%nat) (to_space g fi F)) (fst (beam_field b (enter b (set_ft b F) first step) step media)) (specs step media F0).
  Proof.
    intros D RD R0 R1 L F0 V. destruct (enter_state (set_ft b F) first step) as [E1 E2]. cbn [set_ft pending field_hat] in E1, E2. rewrite Rplus_0_l in E1.
    apply beam_field_slices; try assumption.
    - intros q Hq. rewrite wave_diffract, E1, E2, project_scalar by exact One. reflexivity.
    - rewrite E1. exact R0.
    - rewrite E1. replace (first - step + step)%R with first by ring. exact R1.
  Qed.

  (** In the background. *)
  Lemma diffract_plus x y F q : diffract g axis k y (diffract g axis k x F) q = diffract g axis k (x + y) F q.
  Proof. unfold diffract. rewrite <- Cmult_assoc, <- cis_plus. f_equal. f_equal. ring. Qed.
  Lemma diffract_seen d F : seen F -> seen (diffract g axis k d F).
  Proof. intros [(q & Hq & H)|H]; [|right; exact H]. left. exists q. split; [exact Hq|]. unfold diffract. rewrite Cmod_mult, cis_mod, Rmult_1_r. exact H. Qed.
  Lemma background_spectra d n : forall z F, specs d (background n) (diffract g axis k (z - d) F) = map (fun i => diffract g axis k (z + INR i * d) F) (seq 0 n).
  Proof.
    induction n as [|n IH]; intros z F; [reflexivity|]. unfold background. cbn [repeat spectra seq map]. f_equal.
    - apply functional_extensionality. intros q. cbn [through]. rewrite diffract_plus. f_equal. cbn [INR]. ring.
    - change (repeat None n) with (background n). replace (thru d None (diffract g axis k (z - d) F)) with (diffract g axis k ((z + d) - d) F).
      + rewrite IH, <- seq_shift, map_map. apply map_ext. intros i. rewrite S_INR. f_equal. ring.
      + apply functional_extensionality. intros q. cbn [through]. rewrite diffract_plus. f_equal. ring.
  Qed.
  Lemma background_proper n : Forall proper_layer (background n).
  Proof. apply Forall_forall. intros m Hm. apply repeat_spec in Hm. subst. exact I. Qed.
  Lemma background_seen d n z F : seen F -> Forall seen (diffract g axis k (z - d) F :: specs d (background n) (diffract g axis k (z - d) F)).
  Proof. intros V. constructor; [apply diffract_seen, V|]. rewrite background_spectra. apply Forall_forall. intros F' H. apply in_map_iff in H as (i & <- & _). apply diffract_seen, V. Qed.
  Lemma beam_background F first step n : (0 < step)%R -> resolved step -> resolved (first - step) -> resolved first -> seen (F 0%nat) ->
    Forall2 (fun f i => agree sh (f 0%nat) (to_space g fi (diffract g axis k (first + INR i * step) (F 0%nat)))) (fst (beam_field b (enter b (set_ft b F) first step) step (background n))) (seq 0 n).
  Proof.
    intros D RD R0 R1 V. pose proof (beam_slices F first step (background n) D RD R0 R1 (background_proper n) (background_seen step n first (F 0%nat) V)) as H. cbv zeta in H. rewrite background_spectra in H.
    remember (fst (beam_field b (enter b (set_ft b F) first step) step (background n))) as fs. clear Heqfs. revert H. generalize (seq 0 n). intros l. revert fs. induction l as [|i l IH]; intros fs H; inversion H; subst; constructor; auto.
  Qed.
  (** The second time, the beam goes on where it was. *)
  Lemma beam_second F first step n : (0 < step)%R -> resolved step -> resolved (first - step) -> resolved first -> seen (F 0%nat) -> (0 < n)%nat ->
    let s := snd (beam_field b (enter b (set_ft b F) first step) step (background n)) in
    Forall2 (fun f i => agree sh (f 0%nat) (to_space g fi (diffract g axis k (first + INR (n + i) * step) (F 0%nat)))) (fst (beam_field b s step (background n))) (seq 0 n).
  Proof.
    intros D RD R0 R1 V N s. destruct (enter_state (set_ft b F) first step) as [E1 E2]. cbn [set_ft pending field_hat] in E1, E2. rewrite Rplus_0_l in E1.
    assert (agree sh (wave b (enter b (set_ft b F) first step) 0%nat) (diffract g axis k (first - step) (F 0%nat))) as A by (intros q Hq; rewrite wave_diffract, E1, E2, project_scalar by exact One; reflexivity).
    assert (resolved (pending (enter b (set_ft b F) first step))) as P by (rewrite E1; exact R0).
    assert (resolved (pending (enter b (set_ft b F) first step) + step)) as P' by (rewrite E1; replace (first - step + step)%R with first by ring; exact R1).
    destruct (beam_field_slices step D RD (background n) _ _ A P P' (background_proper n) (background_seen step n first (F 0%nat) V)) as (_ & H2 & H3). fold s in H2, H3.
    assert (pending s = 0%R) as Z by (apply H3; destruct n; [lia|discriminate]).
    assert (last (specs step (background n) (diffract g axis k (first - step) (F 0%nat))) (diffract g axis k (first - step) (F 0%nat)) = diffract g axis k ((first + INR n * step) - step) (F 0%nat)) as E.
    { rewrite background_spectra. destruct n as [|n]; [lia|]. rewrite seq_S, map_app. cbn [map]. rewrite last_last. f_equal. rewrite Nat.add_0_l, S_INR. ring. }
    rewrite E in H2. assert (resolved (pending s)) as P1 by (left; exact Z). assert (resolved (pending s + step)) as P2 by (rewrite Z, Rplus_0_l; exact RD).
    destruct (beam_field_slices step D RD (background n) s _ H2 P1 P2 (background_proper n) (background_seen step n (first + INR n * step) (F 0%nat) V)) as (H & _). rewrite background_spectra in H.
    remember (fst (beam_field b s step (background n))) as fs. clear - H. revert H. generalize (seq 0 n). intros l. revert fs. induction l as [|i l IH]; intros fs H; inversion H; subst; constructor; auto.
    rewrite plus_INR. replace (first + (INR n + INR i) * step)%R with (first + INR n * step + INR i * step)%R by ring. assumption.
  Qed.
End Beams.
