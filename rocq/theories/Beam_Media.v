(** Proofs about beams in media, and about whole beams. *)
From Coq Require Import Reals List Arith Bool ZArith Lia Lra Psatz FunctionalExtensionality.
Require Import Verif.Base Verif.CSum Verif.Field Verif.Fourier_Model Verif.Fourier_Spec Verif.Fourier_Proofs Verif.Vec_Model Verif.Vec_Spec Verif.Vec_Proofs Verif.Modes_Model Verif.Modes_Proofs.
Require Import Verif.Beam_Model Verif.Beam_Spec Verif.Beam_Proofs Verif.Cplx.
Import ListNotations.
Local Open Scope R_scope.
Local Open Scope C_scope.

Section Grid.
  Variables (b : setup).
  Hypothesis (G : section_grid (bgrid b) (baxis b)).
  Notation g := (bgrid b).
  Notation axis := (baxis b).
  Notation fi := (bfirst b).
  Notation sh := (bshape b).

  Lemma space_spectrum f : agree sh (to_space g fi (to_spectrum g fi f)) f.
  Proof.
    intros p Hp. rewrite <- to_space_ift by assumption. etransitivity; [|apply (ift_ft sh f p Hp)]. apply ift_ext. intros q Hq.
    rewrite <- to_spectrum_ft by assumption. rewrite <- Cmult_assoc. unfold shift_ft. rewrite cis_unit. ring.
  Qed.
  Lemma spectrum_space F : agree sh (to_spectrum g fi (to_space g fi F)) F.
  Proof.
    intros q Hq. rewrite <- to_spectrum_ft by assumption. rewrite (ft_ext _ _ (ift sh (fun q => F q * shift_ft b q))) by (intros p Hp; rewrite to_space_ift by assumption; reflexivity).
    rewrite (ft_ift sh _ q Hq). rewrite <- Cmult_assoc, (Cmult_comm (shift_ft b q)). unfold shift_ft. rewrite cis_unit. ring.
  Qed.
  Lemma to_space_ext F F' p : agree sh F F' -> to_space g fi F p = to_space g fi F' p.
  Proof. intros E. unfold to_space. f_equal. apply sum_over_ext. intros q Hq. rewrite E by exact Hq. reflexivity. Qed.
  Lemma to_spectrum_ext f f' q : agree sh f f' -> to_spectrum g fi f q = to_spectrum g fi f' q.
  Proof. intros E. unfold to_spectrum. apply sum_over_ext. intros p Hp. rewrite E by exact Hp. reflexivity. Qed.
  Lemma to_spectrum_scal a f q : to_spectrum g fi (fun p => a * f p) q = a * to_spectrum g fi f q.
  Proof. unfold to_spectrum. rewrite <- sum_over_scal. apply sum_over_ext. intros p _. ring. Qed.

  (** A section with a single point. *)
  Lemma point_shape : extended b = false -> sh = [1; 1; 1]%nat.
  Proof.
    intros E. destruct G as (L & _ & N & _). fold sh in *. unfold extended in E. unfold bshape in *. destruct (rshape g) as [|a [|a' [|a'' [|]]]]; try discriminate.
    inversion N as [|? ? A N']; subst. inversion N' as [|? ? A' N'']; subst. inversion N'' as [|? ? A'' _]; subst. cbn [existsb] in E.
    destruct (Nat.ltb_spec 1 a); [discriminate|]. destruct (Nat.ltb_spec 1 a'); [discriminate|]. destruct (Nat.ltb_spec 1 a''); [discriminate|].
    f_equal; [lia|f_equal; [lia|f_equal; lia]].
  Qed.
  Lemma point_kvec c : sh = [1; 1; 1]%nat -> (c < 3)%nat -> kvec g c [0; 0; 0]%nat = 0%R.
  Proof. intros E Hc. unfold kvec, bshape in *. rewrite E. destruct (lt3 c Hc) as [->|[->| ->]]; cbn [nth]; unfold k_axis; change (k_index 1 0) with 0%Z; unfold Rdiv; ring. Qed.
  Lemma point_index p : inside [1; 1; 1]%nat p -> p = [0; 0; 0]%nat.
  Proof.
    intros H. inversion H as [|? a ? ? A H']; subst. inversion H' as [|? a' ? ? A' H'']; subst. inversion H'' as [|? a'' ? ? A'' H3]; subst. inversion H3; subst.
    f_equal; [lia|f_equal; [lia|f_equal; lia]].
  Qed.
  Lemma point_space F p : extended b = false -> inside sh p -> to_space g fi F p = F p.
  Proof.
    intros E Hp. pose proof (point_shape E) as S. unfold to_space. unfold bshape in *. rewrite S in *. rewrite (point_index p Hp).
    rewrite (sum_over_ext _ _ (fun q => F [0; 0; 0]%nat)).
    - change (points [1; 1; 1]%nat) with 1%nat. cbn [sum_over csum INR]. unfold Cdiv. rewrite <- RtoC_inv by lra. rewrite Rinv_1. ring.
    - intros q Hq. rewrite (point_index q Hq). rewrite rsum3. rewrite !point_kvec by (exact S || lia). rewrite !Rmult_0_l, !Rplus_0_l, cis_0. ring.
  Qed.
  Lemma point_spectrum f q : extended b = false -> inside sh q -> to_spectrum g fi f q = f q.
  Proof.
    intros E Hp. pose proof (point_shape E) as S. unfold to_spectrum. unfold bshape in *. rewrite S in *. rewrite (point_index q Hp).
    rewrite (sum_over_ext _ _ (fun p => f [0; 0; 0]%nat)).
    - cbn [sum_over csum]. ring.
    - intros p Hq. rewrite (point_index p Hq). rewrite rsum3. rewrite !point_kvec by (exact S || lia). rewrite !Rmult_0_l, !Rplus_0_l, Ropp_0, cis_0. ring.
  Qed.

  (** Reading and writing the field. *)
  Lemma negligible_spec F : Beam_Model.negligible b F = true <-> forall c q, (c < bcomp b)%nat -> inside sh q -> (Cmod (F c q) <= / 100000000)%R.
  Proof.
    unfold Beam_Model.negligible. rewrite forallb_forall. split.
    - intros H c q Hc Hq. specialize (H c). rewrite in_seq in H. specialize (H ltac:(lia)). rewrite forallb_forall in H. apply tiny_true, H, indices_inside, Hq.
    - intros H c Hc. rewrite in_seq in Hc. apply forallb_forall. intros q Hq. apply tiny_true, H; [lia|apply indices_inside, Hq].
  Qed.
  Definition visible (F : vfield) : Prop := exists c q, (c < bcomp b)%nat /\ inside sh q /\ (/ 100000000 < Cmod (F c q))%R.
  Lemma visible_spec F : visible F -> Beam_Model.negligible b F = false.
  Proof. intros (c & q & Hc & Hq & H). destruct (Beam_Model.negligible b F) eqn:E; [|reflexivity]. rewrite negligible_spec in E. specialize (E c q Hc Hq). lra. Qed.
  Lemma read_field_space s c p : inside sh p -> visible (read_ft b s) \/ extended b = false -> read_field b s c p = to_space g fi (read_ft b s c) p.
  Proof.
    intros Hp V. unfold read_field. destruct (extended b) eqn:E; [|symmetry; apply point_space; assumption].
    destruct V as [V|V]; [|discriminate]. rewrite (visible_spec _ V). apply to_space_ift; assumption.
  Qed.
  Lemma read_field_dark s c p : extended b = true -> (forall c q, (c < bcomp b)%nat -> inside sh q -> (Cmod (read_ft b s c q) <= / 100000000)%R) -> read_field b s c p = 0.
  Proof. intros E D. unfold read_field. rewrite E. apply negligible_spec in D. rewrite D. reflexivity. Qed.
  Lemma project_ext F F' c q : (c < 3)%nat -> (forall i, (i < 3)%nat -> F i q = F' i q) -> project b F c q = project b F' c q.
  Proof. intros Hc H. unfold project. rewrite H by exact Hc. destruct (1 <? bcomp b)%nat; [|reflexivity]. f_equal. f_equal. apply csum_ext. intros i Hi. rewrite H by exact Hi. reflexivity. Qed.
  Lemma set_field_spectrum f c q : (c < 3)%nat -> inside sh q -> field_hat (set_field b f) c q = project b (fun i => to_spectrum g fi (f i)) c q.
  Proof.
    intros Hc Hq. unfold set_field. destruct (extended b) eqn:E; cbn [set_ft field_hat]; apply project_ext; try exact Hc; intros i _.
    - apply to_spectrum_ft; assumption.
    - symmetry. apply point_spectrum; assumption.
  Qed.
  Lemma set_field_pending f : pending (set_field b f) = 0%R.
  Proof. unfold set_field. destruct (extended b); reflexivity. Qed.

  (** Interaction with a medium. *)
  Lemma uniform_false n : (exists p, inside sh p /\ (/ 100000000 + / 100000 * Cmod (n origin) < Cmod (n p - n origin)%C)%R) -> uniform b n = false.
  Proof.
    intros (p & Hp & H). destruct (uniform b n) eqn:E; [|reflexivity]. unfold uniform in E. rewrite forallb_forall in E. specialize (E p (proj2 (indices_inside _ _) Hp)).
    unfold Rleb in E. destruct (Rle_dec _ _) in E; [lra|discriminate].
  Qed.
  Lemma uniform_true n : (forall p, inside sh p -> (Cmod (n p - n origin)%C <= / 100000000 + / 100000 * Cmod (n origin))%R) -> uniform b n = true.
  Proof. intros H. unfold uniform. apply forallb_forall. intros p Hp. apply indices_inside in Hp. unfold Rleb. destruct (Rle_dec _ _) as [|N]; [reflexivity|]. contradiction (N (H p Hp)). Qed.

  Section Scalar.
    Variable (k : R).
    Hypotheses (K : (0 < k)%R) (BK : bk b = RtoC k) (One : bcomp b = 1%nat).
    Lemma project_scalar F : project b F = F.
    Proof. unfold project. rewrite One. reflexivity. Qed.
    Lemma bright_visible F : bright sh (F 0%nat) -> visible F.
    Proof. intros (q & Hq & H). exists 0%nat, q. rewrite One. auto with arith. Qed.
    Lemma read_diffract s q : resolved (pending s) -> read_ft b s 0%nat q = diffract g axis k (pending s) (field_hat s 0%nat) q.
    Proof. intros H. rewrite read_exact by exact H. unfold wave, diffract. rewrite propagator_real with (k := k) by assumption. reflexivity. Qed.
    (** A layer of a noticeable medium, in terms of what would be read before and after it. *)
    Lemma interact_scalar s d n : resolved (pending s) -> noticeable g (bn b) n -> bright sh (read_ft b s 0%nat) \/ extended b = false ->
      (forall q, inside sh q -> read_ft b (interact b s d n) 0%nat q = transmit g fi (transmittance k (bn b) d n) (read_ft b s 0%nat) q) /\
      (pending (interact b s d n) = 0%R \/ pending (interact b s d n) = pending s) /\
      (forall q, inside sh q -> wave b (interact b s d n) 0%nat q = transmit g fi (transmittance k (bn b) d n) (read_ft b s 0%nat) q).
    Proof.
      intros P N V. assert (visible (read_ft b s) \/ extended b = false) as V' by (destruct V as [V|V]; [left; apply bright_visible, V|right; exact V]).
      assert ((forall q, inside sh q -> wave b (interact b s d n) 0%nat q = transmit g fi (transmittance k (bn b) d n) (read_ft b s 0%nat) q) /\ (pending (interact b s d n) = 0%R \/ pending (interact b s d n) = pending s)) as [W Q].
      { destruct N as [N|[N N']].
        - unfold interact. rewrite uniform_false by exact N. split; [|left; apply set_field_pending]. intros q Hq. unfold wave. rewrite set_field_pending, propagator_0.
          rewrite set_field_spectrum by (exact Hq || lia). rewrite project_scalar, Cmult_1_r. unfold transmit. apply to_spectrum_ext. intros p Hp.
          rewrite read_field_space by assumption. unfold transmittance, cexp, excess. rewrite BK. reflexivity.
        - unfold interact. rewrite uniform_true.
          2:{ intros p Hp. fold origin in N. rewrite (N p Hp). replace (n origin - n origin) with (RtoC 0) by ring. rewrite Cmod_0. pose proof (Cmod_ge_0 (n origin)). lra. }
          assert (forall q, inside sh q -> transmit g fi (transmittance k (bn b) d n) (read_ft b s 0%nat) q = cexp (Ci * bk b * excess b (n origin) * RtoC d) * wave b s 0%nat q) as T.
          { intros q Hq. unfold transmit. rewrite (to_spectrum_ext _ (fun p => cexp (Ci * bk b * excess b (n origin) * RtoC d) * to_space g fi (read_ft b s 0%nat) p)).
            - rewrite to_spectrum_scal. f_equal. rewrite (spectrum_space _ q Hq). apply read_exact. exact P.
            - intros p Hp. unfold transmittance. cbv zeta. rewrite (N p Hp). fold origin. unfold cexp, excess. rewrite BK. ring. }
          destruct (tiny (Cmod (excess b (n origin)))) eqn:Ti.
          + split; [|right; reflexivity]. intros q Hq. rewrite (T q Hq). destruct N' as [N'|N']; [|apply tiny_true in Ti; unfold excess, origin in Ti; lra].
            fold origin in N'. assert (cexp (Ci * bk b * excess b (n origin) * RtoC d) = 1) as ->; [|ring].
            unfold excess. rewrite N'. destruct (Ceq_dec (bn b) 0) as [Z|Z].
            * exfalso. apply tiny_true in Ti. unfold excess in Ti. rewrite N', Z in Ti. unfold Cdiv in Ti. rewrite Cmult_0_l in Ti. replace (0 - 1) with (- (1)) in Ti by ring. rewrite Cmod_opp, Cmod_1 in Ti. lra.
            * etransitivity; [|exact cexp_0]. f_equal. unfold Cdiv. rewrite Cinv_r by exact Z. ring.
          + split; [|right; reflexivity]. intros q Hq. rewrite (T q Hq). unfold wave. cbn [field_hat pending]. ring. }
      split; [|split; assumption]. intros q Hq. rewrite read_exact; [apply W; exact Hq|]. destruct Q as [Q|Q]; rewrite Q; [left; reflexivity|exact P].
    Qed.
  End Scalar.
End Grid.
