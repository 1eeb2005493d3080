(** Proofs for displaced beams: C186. *)
From Coq Require Import Reals List Arith Bool ZArith Lia Lra FunctionalExtensionality.
Require Import Verif.Base Verif.CSum Verif.Field Verif.Fourier_Model Verif.Fourier_Spec Verif.Fourier_Proofs Verif.Vec_Model Verif.Modes_Model Verif.Modes_Proofs.
Require Import Verif.Beam_Model Verif.Beam_Spec Verif.Beam_Proofs Verif.Beam_Media Verif.Symmetry_Shift Verif.Displace_Spec Verif.Cplx.
Import ListNotations.
Local Open Scope R_scope.
Local Open Scope C_scope.

Lemma ift_displaced s z F p : inside s z -> inside s p -> ift s (displaced_ft s z F) p = ift s F (wrap_sub s p z).
Proof.
  intros Hz Hp. unfold ift, displaced_ft. f_equal. apply sum_over_ext. intros j Hj. rewrite cis_wrap_sub by assumption. unfold Rminus. rewrite cis_plus. ring.
Qed.

Section Displace.
  Variables (b : setup) (z : list nat).
  Hypothesis (G : section_grid (bgrid b) (baxis b)) (Z : inside (bshape b) z).
  Notation sh := (bshape b).

  Lemma sh_length : length sh = 3%nat.
  Proof. exact (proj1 G). Qed.
  Lemma origin_in : inside sh origin.
  Proof.
    destruct G as (L & _ & N & _). unfold inside, origin, bshape. destruct (rshape (bgrid b)) as [|n0 [|n1 [|n2 [|]]]]; try discriminate L.
    inversion N as [|? ? N0 N']; subst. inversion N' as [|? ? N1 N'']; subst. inversion N'' as [|? ? N2 _]; subst. repeat constructor; assumption.
  Qed.

  Definition shifted (s t : section) : Prop := (forall c, agree sh (field_hat t c) (displaced_ft sh z (field_hat s c))) /\ pending t = pending s.

  Lemma settle_shifted s t : shifted s t -> shifted (settle b s) (settle b t).
  Proof.
    intros [F P]. unfold settle. rewrite P. destruct (tiny _); [split; assumption|]. split; [|reflexivity]. intros c q Hq. cbn [field_hat]. rewrite (F c q Hq). unfold displaced_ft. ring.
  Qed.
  Lemma read_shifted s t c : shifted s t -> agree sh (read_ft b t c) (displaced_ft sh z (read_ft b s c)).
  Proof. intros S. exact (proj1 (settle_shifted s t S) c). Qed.
  Lemma negligible_shifted F H : (forall c, agree sh (H c) (displaced_ft sh z (F c))) -> negligible b H = negligible b F.
  Proof.
    intros E. apply eq_true_iff_eq. rewrite !(negligible_spec b). split; intros L c q Hc Hq; specialize (L c q Hc Hq).
    - rewrite (E c q Hq) in L. unfold displaced_ft in L. rewrite Cmod_mult, cis_mod, Rmult_1_r in L. exact L.
    - rewrite (E c q Hq). unfold displaced_ft. rewrite Cmod_mult, cis_mod, Rmult_1_r. exact L.
  Qed.
  Lemma single_z : extended b = false -> forall p, inside sh p -> wrap_sub sh p z = p /\ p = [0; 0; 0]%nat.
  Proof.
    intros E p Hp. pose proof (point_shape b G E) as S. rewrite S in *. pose proof (point_index p Hp). pose proof (point_index z Z). subst p. rewrite H0. split; reflexivity.
  Qed.
  Lemma single_phase : extended b = false -> forall q, inside sh q -> cis (- phase sh z q) = 1.
  Proof.
    intros E q Hq. pose proof (point_shape b G E) as S. rewrite S in *. pose proof (point_index q Hq). pose proof (point_index z Z). rewrite H, H0. cbn [phase INR]. replace (- _)%R with 0%R by (field). apply cis_0.
  Qed.
  Lemma read_field_shifted s t c : shifted s t -> agree sh (read_field b t c) (displaced sh z (read_field b s c)).
  Proof.
    intros S p Hp. pose proof (fun c => read_shifted s t c S) as E. unfold displaced, read_field. rewrite (negligible_shifted _ _ E). destruct (extended b) eqn:X.
    - destruct (negligible b _); [reflexivity|]. rewrite <- ift_displaced by assumption. apply ift_ext. intros q Hq. rewrite (E c q Hq). unfold displaced_ft. ring.
    - rewrite (E c p Hp). unfold displaced_ft. rewrite (single_phase X p Hp), (proj1 (single_z X p Hp)). ring.
  Qed.
  Lemma set_ft_shifted F H : (forall c, agree sh (H c) (displaced_ft sh z (F c))) -> shifted (set_ft b F) (set_ft b H).
  Proof.
    intros E. split; [|reflexivity]. intros c q Hq. cbn [set_ft field_hat]. unfold project, displaced_ft. destruct (1 <? bcomp b)%nat; [|exact (E c q Hq)].
    rewrite (E c q Hq). rewrite (csum_ext 3 _ (fun i => cis (- phase sh z q) * (k_dir b i q * F i q))) by (intros i Hi; rewrite (E i q Hq); unfold displaced_ft; ring). rewrite csum_scal. unfold displaced_ft. ring.
  Qed.
  Lemma set_field_shifted f h : (forall c, agree sh (h c) (displaced sh z (f c))) -> shifted (set_field b f) (set_field b h).
  Proof.
    intros E. unfold set_field. destruct (extended b) eqn:X; apply set_ft_shifted; intros c q Hq.
    - rewrite (ft_ext sh _ _ q (E c)). unfold displaced, displaced_ft. rewrite ft_translated by assumption. ring.
    - rewrite (E c q Hq). unfold displaced, displaced_ft. rewrite (single_phase X q Hq), (proj1 (single_z X q Hq)). ring.
  Qed.
  Lemma move_shifted s t d : shifted s t -> shifted (move s d) (move t d).
  Proof. intros [F P]. split; [exact F|]. cbn. rewrite P. reflexivity. Qed.
  Lemma uniform_displaced n : contrasted sh n -> uniform b (displaced sh z n) = uniform b n /\ (uniform b n = true -> displaced sh z n origin = n origin).
  Proof.
    pose proof origin_in as O. pose proof (wrap_sub_inside sh origin z O Z) as O'. intros [U|U].
    - assert (forall m : sfield, (forall p p', inside sh p -> inside sh p' -> m p = m p') -> uniform b m = true) as T.
      { intros m M. apply uniform_true. intros p Hp. rewrite (M p origin Hp O). replace (m origin - m origin) with (RtoC 0) by ring. rewrite Cmod_0. pose proof (Cmod_ge_0 (m origin)). lra. }
      split; [|intros _; apply U; assumption]. rewrite !T; [reflexivity|exact U|]. intros p p' Hp Hp'. apply U; apply wrap_sub_inside; assumption.
    - assert (uniform b n = false) as N by (apply uniform_false; exact (U origin O)). rewrite N. split; [|discriminate]. apply uniform_false.
      destruct (U _ O') as (p & Hp & L). exists (wrap_add sh p z). split; [apply wrap_add_inside; assumption|]. unfold displaced. rewrite wrap_sub_add by assumption. exact L.
  Qed.
  Lemma interact_shifted s t d n : contrasted sh n -> shifted s t -> shifted (interact b s d n) (interact b t d (displaced sh z n)).
  Proof.
    intros N S. destruct (uniform_displaced n N) as [U O]. unfold interact. rewrite U. destruct (uniform b n).
    - rewrite (O eq_refl). destruct (tiny _); [exact S|]. destruct S as [F P]. split; [|exact P]. intros c q Hq. cbn [field_hat]. rewrite (F c q Hq). unfold displaced_ft. ring.
    - apply set_field_shifted. intros c p Hp. rewrite (read_field_shifted s t c S p Hp). reflexivity.
  Qed.
  Lemma act_shifted s t x : clear_cut sh x -> shifted s t -> shifted (act b s x) (act b t (displaced_action sh z x)).
  Proof.
    intros X S. destruct x as [d [n|]| | |F|f]; cbn [displaced_action act].
    - cbn in X. unfold propagate. assert (shifted (if Rltb d 0 then move s d else s) (if Rltb d 0 then move t d else t)) as S1 by (destruct (Rltb d 0); [apply move_shifted|]; exact S).
      pose proof (interact_shifted _ _ d n X S1) as S2. destruct (Rltb 0 d); [apply move_shifted|]; exact S2.
    - unfold propagate. destruct (Rltb d 0), (Rltb 0 d); repeat apply move_shifted; exact S.
    - apply settle_shifted, S.
    - apply settle_shifted, S.
    - apply set_ft_shifted. intros c q Hq. reflexivity.
    - apply set_field_shifted. intros c q Hq. reflexivity.
  Qed.
  Lemma run_shifted l : Forall (clear_cut sh) l -> forall s t, shifted s t -> shifted (run b s l) (run b t (map (displaced_action sh z) l)).
  Proof. intros H. induction H as [|x l X H IH]; intros s t S; [exact S|]. unfold run in *. cbn [map fold_left]. apply IH, act_shifted; assumption. Qed.
  Lemma run_displaced x l s t : (exists F, x = SetFt F \/ x = SetField F) -> Forall (clear_cut sh) l -> forall c,
    agree sh (read_ft b (run b t (map (displaced_action sh z) (x :: l))) c) (displaced_ft sh z (read_ft b (run b s (x :: l)) c)) /\
    agree sh (read_field b (run b t (map (displaced_action sh z) (x :: l))) c) (displaced sh z (read_field b (run b s (x :: l)) c)).
  Proof.
    intros X H c. assert (shifted (act b s x) (act b t (displaced_action sh z x))) as S.
    { destruct X as (F & [->| ->]); cbn [displaced_action act]; [apply set_ft_shifted|apply set_field_shifted]; intros i q Hq; reflexivity. }
    pose proof (run_shifted l H _ _ S) as S'. unfold run in *. cbn [map fold_left]. split; [apply read_shifted|apply read_field_shifted]; exact S'.
  Qed.
  Lemma beam_displaced step media : Forall (fun m => match m with Some n => contrasted sh n | None => True end) media -> forall s t, shifted s t -> forall c p, inside sh p ->
    map (fun f : vfield => f c p) (fst (beam_field b t step (map (option_map (displaced sh z)) media))) = map (fun f : vfield => displaced sh z (f c) p) (fst (beam_field b s step media)).
  Proof.
    intros H. induction H as [|m media M H IH]; intros s t S c p Hp; [reflexivity|]. cbn [map beam_field fst].
    assert (shifted (propagate b s step m) (propagate b t step (option_map (displaced sh z) m))) as S1 by (destruct m as [n|]; [exact (act_shifted s t (Propagate step (Some n)) M S)|exact (act_shifted s t (Propagate step None) I S)]).
    rewrite (read_field_shifted _ _ c S1 p Hp). f_equal. apply IH; [apply settle_shifted, S1|exact Hp].
  Qed.
End Displace.

(** ** Weak contrast *)
Definition duo : setup := {| bgrid := {| rshape := [1; 1; 2]%nat; rstep := [1%R; 0%R; 1%R] |}; bfirst := fun _ => 0%R; bk := RtoC 1; bn := RtoC 1; baxis := 0; bcomp := 1 |}.
Definition faint : sfield := fun p => if idx_eqb p [0; 0; 1]%nat then RtoC (1 + / 100000) else RtoC 1.
Lemma duo_grid : section_grid (bgrid duo) (baxis duo).
Proof. repeat split; try (cbn; lia); try (repeat constructor; lia). intros c Hc H. destruct c as [|[|[|]]]; cbn in *; lia || lra. Qed.
Lemma faint_values p : faint p = RtoC 1 \/ faint p = RtoC (1 + / 100000).
Proof. unfold faint. destruct (idx_eqb _ _); auto. Qed.
Lemma faint_uniform (n : sfield) : (forall p, n p = RtoC 1 \/ n p = RtoC (1 + / 100000)) -> uniform duo n = true.
Proof.
  intros V. apply uniform_true. intros p _. assert (1 <= Cmod (n origin))%R as L by (destruct (V origin) as [-> | ->]; rewrite Cmod_R, Rabs_pos_eq; lra).
  assert (Cmod (n p - n origin)%C <= / 100000)%R; [|lra]. destruct (V p) as [-> | ->], (V origin) as [-> | ->]; rewrite <- RtoC_minus, Cmod_R; apply Rabs_le; lra.
Qed.
Lemma faint_read (n : sfield) F s : (forall p, n p = RtoC 1 \/ n p = RtoC (1 + / 100000)) -> forall q,
  read_ft duo (run duo s [SetFt F; Propagate (100000 * PI) (Some n)]) 0%nat q = F 0%nat q * (if tiny (Cmod (excess duo (n origin))) then 1 else cexp (Ci * bk duo * excess duo (n origin) * RtoC (100000 * PI))) * propagator duo (100000 * PI) q.
Proof.
  intros V q. pose proof PI2_1 as P. unfold PI2 in P. unfold run. cbn [fold_left act]. unfold propagate. rewrite (Rltb_false (100000 * PI) 0), (Rltb_true 0 (100000 * PI)) by lra.
  unfold interact. rewrite (faint_uniform n V). unfold read_ft, settle. destruct (tiny (Cmod _)); cbn [move set_ft pending field_hat]; rewrite Rplus_0_l, Rabs_pos_eq by lra;
    rewrite (proj2 (tiny_false _)) by lra; cbn [field_hat]; unfold project; cbn [duo bcomp Nat.ltb Nat.leb]; ring.
Qed.
Lemma faint_differs s t : read_ft duo (run duo t (map (displaced_action (bshape duo) [0; 0; 1]%nat) [SetFt (fun _ _ => RtoC 1); Propagate (100000 * PI) (Some faint)])) 0%nat [0; 0; 0]%nat <>
  displaced_ft (bshape duo) [0; 0; 1]%nat (read_ft duo (run duo s [SetFt (fun _ _ => RtoC 1); Propagate (100000 * PI) (Some faint)]) 0%nat) [0; 0; 0]%nat.
Proof.
  cbn [map displaced_action]. rewrite faint_read by (intros p; apply faint_values). unfold displaced_ft at 2. rewrite faint_read by exact faint_values.
  change (displaced (bshape duo) [0; 0; 1]%nat faint origin) with (faint [0; 0; 1]%nat). change (faint [0; 0; 1]%nat) with (RtoC (1 + / 100000)). change (faint origin) with (RtoC 1).
  assert (forall x, excess duo (RtoC x) = RtoC (x - 1)) as E. { intros x. unfold excess. cbn [duo bn]. rewrite RtoC_minus. field. intros H. apply (f_equal fst) in H. cbn in H. lra. }
  rewrite !E. rewrite !Cmod_R. replace (1 - 1)%R with 0%R by ring. replace (1 + / 100000 - 1)%R with (/ 100000)%R by ring. rewrite Rabs_R0, Rabs_pos_eq by lra.
  rewrite (proj2 (tiny_true 0)) by lra. rewrite (proj2 (tiny_false (/ 100000))) by lra.
  assert (Ci * bk duo * RtoC (/ 100000) * RtoC (100000 * PI) = Ci * RtoC PI) as -> by (apply injective_projections; cbn; field).
  rewrite cexp_I. unfold displaced_ft. cbn [duo bshape bgrid rshape phase INR]. replace (- (_ + (_ + (_ + 0))))%R with 0%R by field. rewrite cis_0.
  assert (propagator duo (100000 * PI) [0; 0; 0]%nat <> 0) as N by apply cexp_neq_0. set (w := propagator _ _ _) in *.
  assert (cis PI = - RtoC 1) as -> by (unfold cis; rewrite cos_PI, sin_PI; unfold Copp, RtoC; cbn; f_equal; lra).
  intros H. apply N. assert (RtoC 2 * w = 0) as H2 by (replace (RtoC 2) with (1 + 1) by (rewrite <- RtoC_plus; reflexivity); match type of H with ?L = ?R => transitivity (R - L); [ring|rewrite H; ring] end).
  destruct (Ceq_dec w 0) as [W|W]; [exact W|]. exfalso. refine (Cmult_neq_0 _ _ _ W H2). intros Q. apply (f_equal fst) in Q. cbn in Q. lra.
Qed.
