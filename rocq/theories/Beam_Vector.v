(** Proofs about vector beams in media and about the power of beams. *)
From Coq Require Import Reals List Arith Bool ZArith Lia Lra Psatz FunctionalExtensionality.
Require Import Verif.Base Verif.CSum Verif.Field Verif.Fourier_Model Verif.Fourier_Spec Verif.Fourier_Proofs Verif.Vec_Model Verif.Vec_Spec Verif.Vec_Proofs Verif.Modes_Model Verif.Modes_Proofs.
Require Import Verif.Beam_Model Verif.Beam_Spec Verif.Beam_Proofs Verif.Beam_Media Verif.Beam_Slices Verif.Beam_More Verif.Cplx.
Import ListNotations.
Local Open Scope R_scope.
Local Open Scope C_scope.

Section Vector.
  Variables (b : setup) (k : R).
  Hypotheses (G : section_grid (bgrid b) (baxis b)) (K : (0 < k)%R) (BK : bk b = RtoC k) (Three : bcomp b = 3%nat).
  Notation g := (bgrid b).
  Notation axis := (baxis b).
  Notation fi := (bfirst b).
  Notation sh := (bshape b).
  Notation transverse := (transverse g axis k).
  Notation part := (transverse_part g axis k).
  Notation thru := (vector_through g fi axis k (bn b)).
  Notation specs := (vector_spectra g fi axis k (bn b)).

  Lemma wave_vector_sq q : (0 < rsum 3 (fun i => wave_vector g axis k i q * wave_vector g axis k i q))%R.
  Proof. rewrite (wave_vector_norm b k G q). apply (norm_pos b k K). Qed.
  Lemma project_part F c q : (c < 3)%nat -> project b F c q = part F c q.
  Proof.
    intros Hc. unfold project, transverse_part. rewrite Three. cbn [Nat.ltb Nat.leb]. f_equal. rewrite !csum3. rewrite !(k_dir_real b k K BK G) by (lia || exact Hc).
    pose proof (wave_vector_norm b k G q) as N. pose proof (wave_vector_sq q) as P. pose proof (wnorm_pos b k K q) as W.
    assert (wnorm b k q * wnorm b k q = rsum 3 (fun i => wave_vector g axis k i q * wave_vector g axis k i q))%R as S by (rewrite N; apply sqrt_sqrt, Rlt_le, norm_pos; exact K).
    rewrite <- S in *. set (w := wnorm b k q) in *.
    assert (RtoC w <> 0) as NW by (intros Z; apply RtoC_inj in Z; lra). unfold Rdiv. rewrite !RtoC_mult, !RtoC_inv by lra. field. exact NW.
  Qed.
  Lemma part_transverse F c q : transverse F -> part F c q = F c q.
  Proof. intros T. unfold transverse_part. rewrite (T q). unfold Cdiv. ring. Qed.
  Lemma part_ext F F' c q : (c < 3)%nat -> (forall i, (i < 3)%nat -> F i q = F' i q) -> part F c q = part F' c q.
  Proof. intros Hc H. unfold transverse_part. rewrite (H c Hc). rewrite (csum_ext 3 _ (fun i => RtoC (wave_vector g axis k i q) * F' i q)) by (intros i Hi; rewrite (H i Hi); reflexivity). reflexivity. Qed.
  Lemma part_is_transverse F : transverse (part F).
  Proof.
    intros q. rewrite <- (project_transverse b k G K BK Three F q). apply csum_ext. intros c Hc. rewrite project_part by exact Hc. reflexivity.
  Qed.
  Definition vseen (F : vfield) : Prop := bright_vector sh F \/ extended b = false.
  Lemma vseen_visible F : vseen F -> visible b F \/ extended b = false.
  Proof. intros [(c & q & Hc & Hq & H)|H]; [left; exists c, q; rewrite Three; auto|right; exact H]. Qed.
  Definition vagrees (F F' : vfield) : Prop := forall c q, (c < 3)%nat -> inside sh q -> F c q = F' c q.
  Lemma vseen_ext F F' : vagrees F F' -> vseen F -> vseen F'.
  Proof. intros E [(c & q & Hc & Hq & H)|H]; [|right; exact H]. left. exists c, q. repeat split; try assumption. rewrite <- (E c q Hc Hq). exact H. Qed.

  (** A layer of a noticeable medium. *)
  Lemma interact_vector s d n : resolved (pending s) -> noticeable g (bn b) n -> transverse (field_hat s) -> vseen (wave b s) ->
    vagrees (wave b (interact b s d n)) (part (fun i => transmit g fi (transmittance k (bn b) d n) (wave b s i))) /\
    (pending (interact b s d n) = 0%R \/ pending (interact b s d n) = pending s).
  Proof.
    intros P N T V. destruct N as [N|[N N']].
    - unfold interact. rewrite uniform_false by exact N. split; [|left; apply set_field_pending]. intros c q Hc Hq. unfold wave at 1. rewrite set_field_pending, propagator_0.
      rewrite (set_field_spectrum b G) by assumption. rewrite project_part by exact Hc. rewrite Cmult_1_r. apply part_ext; [exact Hc|]. intros i Hi. unfold transmit. apply to_spectrum_ext. intros p Hp.
      rewrite (read_field_space b G) by (exact Hp || (apply vseen_visible, (vseen_ext (wave b s)); [intros c' q' _ _; symmetry; apply read_exact, P|exact V])).
      rewrite (to_space_ext b _ (wave b s i)) by (intros q' _; apply read_exact, P). unfold transmittance, cexp, excess. rewrite BK. reflexivity.
    - unfold interact. rewrite uniform_true.
      2:{ intros p Hp. fold origin in N. rewrite (N p Hp). replace (n origin - n origin) with (RtoC 0) by ring. rewrite Cmod_0. pose proof (Cmod_ge_0 (n origin)). lra. }
      set (t := cexp (Ci * bk b * excess b (n origin) * RtoC d)).
      assert (forall i q, inside sh q -> transmit g fi (transmittance k (bn b) d n) (wave b s i) q = t * wave b s i q) as M.
      { intros i q Hq. unfold transmit. rewrite (to_spectrum_ext b _ (fun p => t * to_space g fi (wave b s i) p)).
        - rewrite to_spectrum_scal. f_equal. apply (spectrum_space b G _ q Hq).
        - intros p Hp. unfold transmittance. cbv zeta. rewrite (N p Hp). fold origin. unfold t, cexp, excess. rewrite BK. ring. }
      assert (vagrees (part (fun i => transmit g fi (transmittance k (bn b) d n) (wave b s i))) (fun c q => wave b s c q * t)) as E.
      { intros c q Hc Hq. rewrite (part_ext _ (fun c q => wave b s c q * t)) by (try exact Hc; intros i Hi; rewrite (M i q Hq); ring). apply part_transverse.
        apply (transverse_scale b k (wave b s) (fun _ => t)). apply (transverse_scale b k (field_hat s) (fun q => propagator b (pending s) q) T). }
      destruct (tiny (Cmod (excess b (n origin)))) eqn:Ti.
      + split; [|right; reflexivity]. intros c q Hc Hq. rewrite (E c q Hc Hq). destruct N' as [N'|N']; [|apply tiny_true in Ti; unfold excess, origin in Ti; lra].
        assert (t = 1) as ->; [|ring]. fold origin in N'. unfold t, excess. rewrite N'. destruct (Ceq_dec (bn b) 0) as [Z|Z].
        * exfalso. apply tiny_true in Ti. unfold excess in Ti. rewrite N', Z in Ti. unfold Cdiv in Ti. rewrite Cmult_0_l in Ti. replace (0 - 1) with (- (1)) in Ti by ring. rewrite Cmod_opp, Cmod_1 in Ti. lra.
        * etransitivity; [|exact cexp_0]. f_equal. unfold Cdiv. rewrite Cinv_r by exact Z. ring.
      + split; [|right; reflexivity]. intros c q Hc Hq. rewrite (E c q Hc Hq). unfold wave. cbn [field_hat pending]. fold t. ring.
  Qed.
  Lemma vthru_ext d m F F' : vagrees F F' -> vagrees (thru d m F) (thru d m F').
  Proof.
    intros E c q Hc Hq. destruct m as [n|]; unfold vector_through, diffract; f_equal; [|apply E; assumption].
    apply part_ext; [exact Hc|]. intros i Hi. apply transmit_ext. intros q' Hq'. apply E; assumption.
  Qed.
  Lemma vslice_forward s d m : (0 < d)%R -> resolved (pending s) -> noticed g (bn b) m -> transverse (field_hat s) -> vseen (wave b s) ->
    vagrees (wave b (propagate b s d m)) (thru d m (wave b s)) /\ (pending (propagate b s d m) = d \/ pending (propagate b s d m) = (pending s + d)%R).
  Proof.
    intros D P L T V. rewrite propagate_forward by exact D. destruct m as [n|].
    - destruct (interact_vector s d n P L T V) as [W Q]. split.
      + intros c q Hc Hq. rewrite wave_move, (W c q Hc Hq). unfold vector_through, diffract. rewrite (propagator_real b k) by assumption. reflexivity.
      + cbn [move pending]. destruct Q as [-> | ->]; [left; ring|right; reflexivity].
    - split; [|right; reflexivity]. intros c q Hc Hq. rewrite wave_move. rewrite (propagator_real b k) by assumption. reflexivity.
  Qed.
  Lemma vbeam_field_slices d : (0 < d)%R -> resolved d -> forall media s F, vagrees (wave b s) F -> transverse (field_hat s) -> resolved (pending s) -> resolved (pending s + d) ->
    Forall (noticed g (bn b)) media -> Forall vseen (F :: specs d media F) ->
    Forall2 (fun f F => forall c, (c < 3)%nat -> agree sh (f c) (to_space g fi (F c))) (fst (beam_field b s d media)) (specs d media F).
  Proof.
    intros D RD. induction media as [|m media IH]; intros s F A T P P' L V; [constructor|].
    inversion L as [|? ? Lm L']; subst. cbn [vector_spectra] in *. inversion V as [|? ? V0 V']; subst. inversion V' as [|? ? V1 V'']; subst.
    destruct (vslice_forward s d m D P Lm T (vseen_ext _ _ (fun c q Hc Hq => eq_sym (A c q Hc Hq)) V0)) as [W Q].
    assert (resolved (pending (propagate b s d m))) as R1 by (destruct Q as [-> | ->]; assumption).
    assert (vagrees (wave b (propagate b s d m)) (thru d m F)) as A1 by (intros c q Hc Hq; rewrite (W c q Hc Hq); apply vthru_ext; assumption).
    pose proof (settle_resolved b _ R1) as Z.
    assert (transverse (field_hat (propagate b s d m))) as T1 by exact (act_transverse b k G K BK Three s (Propagate d m) T).
    cbn [beam_field fst snd]. constructor.
    - intros c Hc p Hp.
      assert (vagrees (read_ft b (propagate b s d m)) (thru d m F)) as A3 by (intros c' q Hc' Hq; rewrite read_exact by exact R1; apply A1; assumption).
      rewrite (read_field_space b G); [apply (to_space_ext b); intros q Hq; apply A3; assumption|exact Hp|].
      apply vseen_visible. apply (vseen_ext (thru d m F)); [intros c' q Hc' Hq; symmetry; apply A3; assumption|exact V1].
    - apply IH.
      + intros c q Hc Hq. rewrite wave_settle. apply A1; assumption.
      + apply settle_transverse, T1.
      + left; exact Z.
      + rewrite Z, Rplus_0_l; exact RD.
      + exact L'.
      + exact V'.
  Qed.
  Lemma vbeam_slices F first step media : (0 < step)%R -> resolved step -> resolved (first - step) -> resolved first -> Forall (noticed g (bn b)) media ->
    let F0 := fun c => diffract g axis k (first - step) (part F c) in Forall vseen (F0 :: specs step media F0) ->
    Forall2 (fun f F => forall c, (c < 3)%nat -> agree sh (f c) (to_space g fi (F c))) (fst (beam_field b (enter b (set_ft b F) first step) step media)) (specs step media F0).
  Proof.
    intros D RD R0 R1 L F0 V. destruct (enter_state b (set_ft b F) first step) as [E1 E2]. cbn [set_ft pending field_hat] in E1, E2. rewrite Rplus_0_l in E1.
    apply vbeam_field_slices; try assumption.
    - intros c q Hc Hq. unfold wave. rewrite E1, E2, project_part by exact Hc. rewrite (propagator_real b k) by assumption. reflexivity.
    - rewrite E2. apply project_transverse; assumption.
    - rewrite E1. exact R0.
    - rewrite E1. replace (first - step + step)%R with first by ring. exact R1.
  Qed.
  (** In the background. *)
  Lemma vdiffract_seen d F : vseen F -> vseen (fun c => diffract g axis k d (F c)).
  Proof. intros [(c & q & Hc & Hq & H)|H]; [|right; exact H]. left. exists c, q. repeat split; try assumption. unfold diffract. rewrite Cmod_mult, cis_mod, Rmult_1_r. exact H. Qed.
  Lemma vbackground_spectra d n : forall z F, specs d (background n) (fun c => diffract g axis k (z - d) (F c)) = map (fun i c => diffract g axis k (z + INR i * d) (F c)) (seq 0 n).
  Proof.
    induction n as [|n IH]; intros z F; [reflexivity|]. unfold background. cbn [repeat vector_spectra seq map]. cbv zeta.
    assert (thru d None (fun c => diffract g axis k (z - d) (F c)) = fun c => diffract g axis k (z + INR 0 * d) (F c)) as E.
    { apply functional_extensionality. intros c. apply functional_extensionality. intros q. cbn [vector_through]. rewrite (diffract_plus b k). f_equal. cbn [INR]. ring. }
    f_equal; [exact E|]. change (repeat None n) with (background n). rewrite E. replace (fun c => diffract g axis k (z + INR 0 * d) (F c)) with (fun c => diffract g axis k ((z + d) - d) (F c)).
    - rewrite IH, <- seq_shift, map_map. apply map_ext. intros i. apply functional_extensionality. intros c. rewrite S_INR. f_equal. ring.
    - apply functional_extensionality. intros c. f_equal. cbn [INR]. ring.
  Qed.
  Lemma vbeam_background F first step n : (0 < step)%R -> resolved step -> resolved (first - step) -> resolved first -> vseen (part F) ->
    Forall2 (fun f i => forall c, (c < 3)%nat -> agree sh (f c) (to_space g fi (diffract g axis k (first + INR i * step) (part F c)))) (fst (beam_field b (enter b (set_ft b F) first step) step (background n))) (seq 0 n).
  Proof.
    intros D RD R0 R1 V. assert (Forall vseen ((fun c => diffract g axis k (first - step) (part F c)) :: specs step (background n) (fun c => diffract g axis k (first - step) (part F c)))) as V'.
    { constructor; [apply vdiffract_seen, V|]. rewrite vbackground_spectra. apply Forall_forall. intros F' H. apply in_map_iff in H as (i & <- & _). apply (vdiffract_seen _ (part F)), V. }
    pose proof (vbeam_slices F first step (background n) D RD R0 R1 (background_proper b n) V') as H. cbv zeta in H. rewrite vbackground_spectra in H.
    remember (fst (beam_field b (enter b (set_ft b F) first step) step (background n))) as fs. clear Heqfs. revert H. generalize (seq 0 n). intros l. revert fs. induction l as [|i l IH]; intros fs H; inversion H; subst; constructor; auto.
  Qed.
End Vector.
