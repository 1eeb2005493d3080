(** Proofs about scalar beams and polarised beams: C192. *)
From Coq Require Import Reals List Arith Bool ZArith Lia Lra FunctionalExtensionality.
Require Import Verif.Base Verif.CSum Verif.Field Verif.Fourier_Model Verif.Fourier_Spec Verif.Fourier_Proofs Verif.Vec_Model Verif.Vec_Proofs Verif.Modes_Model Verif.Modes_Proofs.
Require Import Verif.Beam_Model Verif.Beam_Spec Verif.Beam_Proofs Verif.Beam_Media Verif.Polar_Spec Verif.Cplx.
Import ListNotations.
Local Open Scope R_scope.
Local Open Scope C_scope.

Section Polar.
  Variables (b : setup) (a : nat).
  Hypotheses (G : section_grid (bgrid b) (baxis b)) (Three : bcomp b = 3%nat) (A : (a < 3)%nat) (Across : a <> baxis b) (Thin : nth a (bshape b) 0%nat = 1%nat).
  Notation sh := (bshape b).
  Notation b1 := (scalar_setup b).
  Definition alike (F F' : vfield) : Prop := vagree 3 sh F' (polarised a F).
  Definition upright (s t : section) : Prop := alike (field_hat s) (field_hat t) /\ pending t = pending s.

  Lemma thin_index q : inside sh q -> nth a q 0%nat = 0%nat.
  Proof.
    intros Hq. pose proof (inside_nth sh q a Hq) as L. destruct G as (L3 & _). unfold bshape in *. specialize (L ltac:(lia)). rewrite (nth_indep (rshape (bgrid b)) 1%nat 0%nat) in L by lia. lia.
  Qed.
  Lemma thin_kvec q : inside sh q -> kvec (bgrid b) a q = 0%R.
  Proof.
    intros Hq. unfold kvec, k_axis. rewrite (thin_index q Hq). unfold bshape in Thin. rewrite (nth_indep _ 1%nat 0%nat) by (destruct G as (L3 & _); rewrite L3; exact A). rewrite Thin. change (k_index 1 0) with 0%Z. unfold Rdiv. ring.
  Qed.
  Lemma thin_dir q : inside sh q -> k_dir b a q = 0.
  Proof.
    intros Hq. unfold k_dir, k_proj. replace (a =? baxis b)%nat with false by (symmetry; apply Nat.eqb_neq, Across). unfold k_proj_t. replace (a =? baxis b)%nat with false by (symmetry; apply Nat.eqb_neq, Across). rewrite (thin_kvec q Hq). unfold Cdiv. rewrite Cmult_0_l. ring.
  Qed.
  Lemma settle_upright s t : upright s t -> upright (settle b1 s) (settle b t).
  Proof.
    intros (F & P). unfold settle. rewrite P. destruct (tiny _); [split; assumption|]. split; [|reflexivity]. intros c q Hc Hq. cbn [field_hat]. rewrite (F c q Hc Hq). unfold polarised. change (propagator b1) with (propagator b). destruct (c =? a)%nat; [reflexivity|ring].
  Qed.
  Lemma read_upright s t : upright s t -> alike (read_ft b1 s) (read_ft b t).
  Proof. intros J. exact (proj1 (settle_upright s t J)). Qed.
  Lemma negligible_upright F F' : alike F F' -> negligible b F' = negligible b1 F.
  Proof.
    intros J. apply eq_true_iff_eq. rewrite !negligible_spec. rewrite Three. cbn [scalar_setup bcomp]. change (bshape b1) with sh. split; intros H c q Hc Hq.
    - assert (c = 0%nat) as -> by lia. specialize (H a q A Hq). rewrite (J a q A Hq) in H. unfold polarised in H. rewrite Nat.eqb_refl in H. exact H.
    - rewrite (J c q Hc Hq). unfold polarised. destruct (c =? a)%nat; [apply H; [lia|exact Hq]|]. rewrite Cmod_0. lra.
  Qed.
  Lemma read_field_upright s t : upright s t -> alike (read_field b1 s) (read_field b t).
  Proof.
    intros J c p Hc Hp. pose proof (read_upright s t J) as E. unfold polarised, read_field. change (extended b1) with (extended b). change (bshape b1) with sh. rewrite (negligible_upright _ _ E). destruct (extended b).
    - destruct (negligible b1 (read_ft b1 s)); [destruct (c =? a)%nat; reflexivity|].
      rewrite (ift_ext sh _ (fun q => (polarised a (read_ft b1 s) c q * shift_ft b q))) by (intros q Hq; rewrite (E c q Hc Hq); reflexivity). unfold polarised. destruct (c =? a)%nat; [reflexivity|].
      replace (fun q => 0 * shift_ft b q) with (fun q => 0 * (0 * shift_ft b q)) by (apply functional_extensionality; intros; ring). rewrite ift_scal. ring.
    - rewrite (E c p Hc Hp). reflexivity.
  Qed.
  Lemma set_ft_upright F F' : alike F F' -> upright (set_ft b1 F) (set_ft b F').
  Proof.
    intros E. split; [|reflexivity]. intros c q Hc Hq. cbn [set_ft field_hat]. unfold project. rewrite Three. cbn [Nat.ltb Nat.leb scalar_setup bcomp]. unfold polarised. cbn [Nat.ltb Nat.leb].
    rewrite (csum_ext 3 _ (fun _ => 0 * 0)).
    - rewrite csum_scal, (E c q Hc Hq). unfold polarised. ring.
    - intros i Hi. rewrite (E i q Hi Hq). unfold polarised. destruct (i =? a)%nat eqn:X; [apply Nat.eqb_eq in X; subst i; rewrite (thin_dir q Hq)|]; ring.
  Qed.
  Lemma set_field_upright f f' : alike f f' -> upright (set_field b1 f) (set_field b f').
  Proof.
    intros E. unfold set_field. change (extended b1) with (extended b). change (bshape b1) with sh. destruct (extended b); apply set_ft_upright; [|exact E]. intros c q Hc Hq.
    rewrite (ft_ext sh _ (polarised a f c)) by (intros p Hp; exact (E c p Hc Hp)). unfold polarised. destruct (c =? a)%nat; [reflexivity|].
    replace (fun _ : list nat => RtoC 0) with (fun p : list nat => 0 * (fun _ => RtoC 0) p) by (apply functional_extensionality; intros; ring). rewrite ft_scal. ring.
  Qed.
  Lemma move_upright s t d : upright s t -> upright (move s d) (move t d).
  Proof. intros (F & P). split; [exact F|]. cbn. rewrite P. reflexivity. Qed.
  Lemma interact_upright s t d n : upright s t -> upright (interact b1 s d n) (interact b t d n).
  Proof.
    intros J. unfold interact. change (uniform b1 n) with (uniform b n). destruct (uniform b n).
    - change (excess b1) with (excess b). destruct (tiny _); [exact J|]. destruct J as (F & P). split; [|exact P]. intros c q Hc Hq. cbn [field_hat]. rewrite (F c q Hc Hq). unfold polarised. change (bk b1) with (bk b). destruct (c =? a)%nat; [reflexivity|ring].
    - apply set_field_upright. intros c p Hc Hp. rewrite (read_field_upright s t J c p Hc Hp). unfold polarised. change (bk b1) with (bk b). change (excess b1) with (excess b). destruct (c =? a)%nat; [reflexivity|ring].
  Qed.
  Lemma propagate_upright s t d m : upright s t -> upright (propagate b1 s d m) (propagate b t d m).
  Proof.
    intros J. unfold propagate. assert (upright (if Rltb d 0 then move s d else s) (if Rltb d 0 then move t d else t)) as J1 by (destruct (Rltb d 0); [apply move_upright|]; exact J).
    destruct m as [n|]; [pose proof (interact_upright _ _ d n J1) as J2|pose proof J1 as J2]; destruct (Rltb 0 d); try apply move_upright; exact J2.
  Qed.
  Lemma alike_polarised F : alike F (polarised a F).
  Proof. intros c q _ _. reflexivity. Qed.
  Lemma act_upright s t x : upright s t -> upright (act b1 s x) (act b t (polarised_action a x)).
  Proof.
    intros J. destruct x as [d m| | |F|f]; cbn [act polarised_action]; [apply propagate_upright|apply settle_upright|apply settle_upright|apply set_ft_upright, alike_polarised|apply set_field_upright, alike_polarised]; exact J.
  Qed.
  Lemma run_upright l : forall s t, upright s t -> upright (run b1 s l) (run b t (map (polarised_action a) l)).
  Proof. induction l as [|x l IH]; intros s t J; [exact J|]. unfold run in *. cbn [map fold_left]. apply IH, act_upright, J. Qed.
  Lemma start_upright x s t : (exists F, x = SetFt F \/ x = SetField F) -> upright (act b1 s x) (act b t (polarised_action a x)).
  Proof. intros (F & [-> | ->]); cbn [act polarised_action]; [apply set_ft_upright|apply set_field_upright]; apply alike_polarised. Qed.
  Lemma section_upright x l s t : (exists F, x = SetFt F \/ x = SetField F) ->
    alike (read_field b1 (run b1 s (x :: l))) (read_field b (run b t (map (polarised_action a) (x :: l)))) /\ alike (read_ft b1 (run b1 s (x :: l))) (read_ft b (run b t (map (polarised_action a) (x :: l)))).
  Proof.
    intros X. assert (upright (run b1 s (x :: l)) (run b t (map (polarised_action a) (x :: l)))) as J by (unfold run; cbn [map fold_left]; apply run_upright, start_upright, X). split; [apply read_field_upright|apply read_upright]; exact J.
  Qed.
  Lemma slices_upright step media : forall s t, upright s t -> Forall2 alike (fst (beam_field b1 s step media)) (fst (beam_field b t step media)).
  Proof.
    induction media as [|m media IH]; intros s t J; [constructor|]. cbn [beam_field fst]. pose proof (propagate_upright s t step m J) as J1. constructor; [apply read_field_upright, J1|]. apply IH, settle_upright, J1.
  Qed.
  Lemma beam_upright f first step media : Forall2 alike (fst (beam_field b1 (enter b1 (set_field b1 f) first step) step media)) (fst (beam_field b (enter b (set_field b (polarised a f)) first step) step media)).
  Proof. apply slices_upright. apply propagate_upright, set_field_upright, alike_polarised. Qed.
End Polar.
