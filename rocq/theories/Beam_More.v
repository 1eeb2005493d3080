(** Proofs about beams: polarization, time reversal, power, and what the tolerances do. *)
From Coq Require Import Reals List Arith Bool ZArith Lia Lra Psatz FunctionalExtensionality.
Require Import Verif.Base Verif.CSum Verif.Field Verif.Fourier_Model Verif.Fourier_Spec Verif.Fourier_Proofs Verif.Vec_Model Verif.Vec_Spec Verif.Vec_Proofs Verif.Modes_Model Verif.Modes_Proofs.
Require Import Verif.Beam_Model Verif.Beam_Spec Verif.Beam_Proofs Verif.Beam_Media Verif.Beam_Slices Verif.Cplx.
Import ListNotations.
Local Open Scope R_scope.
Local Open Scope C_scope.

(** ** Polarization *)
Section Vector.
  Variables (b : setup) (k : R).
  Hypotheses (G : section_grid (bgrid b) (baxis b)) (K : (0 < k)%R) (BK : bk b = RtoC k) (Three : bcomp b = 3%nat).
  Notation g := (bgrid b).
  Notation axis := (baxis b).
  Notation transverse := (transverse g axis k).
  Lemma project_transverse F : transverse (project b F).
  Proof.
    intros q. unfold project. rewrite Three. cbn [Nat.ltb Nat.leb]. rewrite !csum3. rewrite !(k_dir_real b k K BK G) by lia.
    pose proof (wave_vector_norm b k G q) as N. rewrite rsum3 in N. pose proof (wnorm_pos b k K q) as W. unfold wnorm in *.
    assert (sqrt (Rmax (k * k) (kt2 g axis q)) * sqrt (Rmax (k * k) (kt2 g axis q)) = Rmax (k * k) (kt2 g axis q))%R as S by (apply sqrt_sqrt, Rlt_le, norm_pos; exact K).
    rewrite <- N in S at 3. set (w := sqrt _) in *.
    set (x := wave_vector g axis k 0 q) in *. set (y := wave_vector g axis k 1 q) in *. set (z := wave_vector g axis k 2 q) in *.
    assert (RtoC (x / w) * RtoC x + RtoC (y / w) * RtoC y + RtoC (z / w) * RtoC z = RtoC w) as E.
    { rewrite <- !RtoC_mult, <- !RtoC_plus. f_equal. replace (x / w * x + y / w * y + z / w * z)%R with ((x * x + y * y + z * z) / w)%R by (field; lra). rewrite <- S. field. lra. }
    set (D := RtoC (x / w) * F 0%nat q + RtoC (y / w) * F 1%nat q + RtoC (z / w) * F 2%nat q).
    transitivity (RtoC x * F 0%nat q + RtoC y * F 1%nat q + RtoC z * F 2%nat q - (RtoC (x / w) * RtoC x + RtoC (y / w) * RtoC y + RtoC (z / w) * RtoC z) * D); [ring|].
    rewrite E. unfold D. clearbody x y z w. clear E D S.
    assert (forall v, RtoC v = RtoC w * RtoC (v / w)) as M by (intros v; rewrite <- RtoC_mult; f_equal; field; lra).
    pose proof (M x) as Mx. pose proof (M y) as My. pose proof (M z) as Mz. rewrite Mx, My, Mz. ring.
  Qed.
  Lemma transverse_scale F h : transverse F -> transverse (fun c q => F c q * h q).
  Proof. intros T q. specialize (T q). rewrite csum3 in *. transitivity ((RtoC (wave_vector g axis k 0 q) * F 0%nat q + RtoC (wave_vector g axis k 1 q) * F 1%nat q + RtoC (wave_vector g axis k 2 q) * F 2%nat q) * h q); [ring|]. rewrite T. ring. Qed.
  Lemma settle_transverse s : transverse (field_hat s) -> transverse (field_hat (settle b s)).
  Proof. intros T. unfold settle. destruct (tiny _); [exact T|]. cbn [field_hat]. apply (transverse_scale _ (fun q => propagator b (pending s) q) T). Qed.
  Lemma set_transverse f : transverse (field_hat (set_field b f)).
  Proof. unfold set_field. destruct (extended b); apply project_transverse. Qed.
  Lemma act_transverse s a : transverse (field_hat s) -> transverse (field_hat (act b s a)).
  Proof.
    intros T. destruct a as [d m| | |F|f]; cbn [act].
    - unfold propagate. set (s1 := if Rltb d 0 then move s d else s). assert (transverse (field_hat s1)) as T1 by (unfold s1; destruct (Rltb d 0); exact T).
      assert (transverse (field_hat (match m with None => s1 | Some n => interact b s1 d n end))) as T2.
      { destruct m as [n|]; [|exact T1]. unfold interact. destruct (uniform b n); [|apply set_transverse]. destruct (tiny _); [exact T1|]. cbn [field_hat]. apply (transverse_scale _ (fun _ => _) T1). }
      destruct (Rltb 0 d); exact T2.
    - apply settle_transverse, T.
    - apply settle_transverse, T.
    - apply project_transverse.
    - apply set_transverse.
  Qed.
  Lemma run_transverse l : forall s, transverse (field_hat s) -> transverse (read_ft b (run b s l)).
  Proof.
    intros s T. unfold read_ft. apply settle_transverse. revert s T. induction l as [|a l IH]; intros s T; [exact T|]. apply IH, act_transverse, T.
  Qed.
End Vector.

(** ** Scalar beams *)
Section Scalar.
  Variables (b : setup) (k : R).
  Hypotheses (G : section_grid (bgrid b) (baxis b)) (K : (0 < k)%R) (BK : bk b = RtoC k) (One : bcomp b = 1%nat).
  Notation g := (bgrid b).
  Notation axis := (baxis b).
  Notation fi := (bfirst b).
  Notation sh := (bshape b).

  (** What was written is read. *)
  Lemma set_read s f : bright sh (read_ft b (run b s [SetField f]) 0%nat) \/ extended b = false -> agree sh (read_field b (run b s [SetField f]) 0%nat) (f 0%nat).
  Proof.
    intros V p Hp. cbn [run fold_left act] in *. rewrite read_field_space; [|exact G|exact Hp|destruct V as [V|V]; [left; apply (bright_visible b One), V|right; exact V]].
    etransitivity; [|apply (space_spectrum b G (f 0%nat) p Hp)]. apply to_space_ext. intros q Hq. rewrite read_exact by (left; apply set_field_pending).
    unfold wave. rewrite set_field_pending, propagator_0, set_field_spectrum by (assumption || lia). rewrite project_scalar by exact One. apply Cmult_1_r.
  Qed.

  (** Time reversal. *)
  Lemma transmit_inverse t t' F : (forall p, inside sh p -> t p * t' p = 1) -> agree sh (transmit g fi t' (transmit g fi t F)) F.
  Proof.
    intros T q Hq. unfold transmit at 1. rewrite (to_spectrum_ext b _ (to_space g fi F)).
    - apply (spectrum_space b G F q Hq).
    - intros p Hp. unfold transmit. rewrite (space_spectrum b G _ p Hp). rewrite <- Cmult_assoc, (T p Hp). ring.
  Qed.
  Lemma transmittance_inverse d n p : transmittance k (bn b) d n p * transmittance k (bn b) (- d) n p = 1.
  Proof.
    unfold transmittance. cbv zeta. change (cexp (Ci * RtoC k * (n p / bn b - 1) * RtoC d) * cexp (Ci * RtoC k * (n p / bn b - 1) * RtoC (- d)) = 1). rewrite <- cexp_plus.
    etransitivity; [|exact cexp_0]. f_equal. rewrite RtoC_opp. ring.
  Qed.
  Lemma propagate_backward s d n : (d < 0)%R -> propagate b s d (Some n) = interact b (move s d) d n.
  Proof. intros D. unfold propagate. rewrite (Rltb_true d 0), (Rltb_false 0 d) by lra. reflexivity. Qed.
  Lemma seen_unmoved d F : seen b (diffract g axis k d F) -> seen b F.
  Proof. intros [(q & Hq & H)|H]; [|right; exact H]. left. exists q. split; [exact Hq|]. unfold diffract in H. rewrite Cmod_mult, cis_mod, Rmult_1_r in H. exact H. Qed.
  Lemma reversal s0 F d n : resolved d -> noticeable g (bn b) n -> seen b (F 0%nat) -> seen b (read_ft b (run b s0 [SetFt F; Propagate d (Some n)]) 0%nat) ->
    agree sh (read_ft b (run b s0 [SetFt F; Propagate d (Some n); Propagate (- d) (Some n)]) 0%nat) (F 0%nat).
  Proof.
    intros R N V V1. cbn [run fold_left act] in *. set (s := set_ft b F) in *.
    assert (forall q, wave b s 0%nat q = F 0%nat q) as W0 by (intros q; unfold wave, s, set_ft; cbn [field_hat pending]; rewrite project_scalar, propagator_0 by exact One; ring).
    destruct (Rtotal_order d 0) as [D|[D|D]].
    - (* backward, then forward *)
      rewrite (propagate_backward s d n D) in *. rewrite propagate_forward by lra. cbn [pending move] in *.
      assert (resolved (pending (move s d))) as P1 by (cbn [move pending s set_ft]; rewrite Rplus_0_l; exact R).
      assert (agree sh (wave b (move s d) 0%nat) (diffract g axis k d (F 0%nat))) as W1 by (intros q _; rewrite wave_move, W0; rewrite (propagator_real b k) by assumption; reflexivity).
      assert (seen b (read_ft b (move s d) 0%nat)) as S1.
      { apply (seen_ext b (diffract g axis k d (F 0%nat))); [intros q Hq; rewrite read_exact by exact P1; symmetry; apply W1, Hq|apply diffract_seen, V]. }
      destruct (interact_scalar b G k BK One (move s d) d n P1 N S1) as (A & Q & B). set (s1 := interact b (move s d) d n) in *.
      assert (resolved (pending s1)) as P2 by (destruct Q as [Q|Q]; rewrite Q; [left; reflexivity|exact P1]).
      destruct (interact_scalar b G k BK One s1 (- d) n P2 N V1) as (A' & Q' & B'). set (s2 := interact b s1 (- d) n) in *.
      intros q Hq. rewrite read_exact.
      + rewrite wave_move, (B' q Hq). rewrite (transmit_ext b _ _ (transmit g fi (transmittance k (bn b) d n) (read_ft b (move s d) 0%nat))) by (intros q' Hq'; apply A, Hq').
        rewrite (transmit_inverse _ _ _ (fun p _ => transmittance_inverse d n p) q Hq). rewrite read_exact by exact P1. rewrite (W1 q Hq). unfold diffract. rewrite (propagator_real b k) by assumption.
        rewrite <- Cmult_assoc, <- cis_plus. replace (d * axial g axis k q + - d * axial g axis k q)%R with 0%R by ring. rewrite cis_0. ring.
      + cbn [move pending] in *. unfold s, set_ft in Q. cbn [pending] in Q. rewrite Rplus_0_l in Q. unfold resolved in R. destruct R as [R|R]; [lra|]. 
        destruct Q' as [Q'|Q']; rewrite Q'; [right; rewrite Rplus_0_l, Rabs_Ropp; exact R|]. destruct Q as [Q|Q]; rewrite Q; [right; rewrite Rplus_0_l, Rabs_Ropp; exact R|left; ring].
    - (* no distance *)
      subst d. rewrite Ropp_0 in *. assert (forall s, propagate b s 0 (Some n) = interact b s 0 n) as E by (intros s'; unfold propagate; rewrite !(Rltb_false 0 0) by apply Rle_refl; reflexivity). rewrite !E in *.
      assert (resolved (pending s)) as P1 by (left; reflexivity).
      assert (seen b (read_ft b s 0%nat)) as S1 by (apply (seen_ext b (F 0%nat)); [intros q Hq; rewrite read_exact by exact P1; symmetry; apply W0|exact V]).
      destruct (interact_scalar b G k BK One s 0 n P1 N S1) as (A & Q & B). set (s1 := interact b s 0 n) in *.
      assert (pending s1 = 0%R) as P2 by (destruct Q as [Q|Q]; rewrite Q; reflexivity).
      destruct (interact_scalar b G k BK One s1 0 n (or_introl P2) N V1) as (A' & _ & _). intros q Hq. rewrite (A' q Hq).
      rewrite (transmit_ext b _ _ (transmit g fi (transmittance k (bn b) 0 n) (read_ft b s 0%nat))) by (intros q' Hq'; apply A, Hq').
      rewrite (transmit_inverse _ _ _ (fun p _ => eq_trans (f_equal (fun x => transmittance k (bn b) 0 n p * transmittance k (bn b) x n p) (eq_sym Ropp_0)) (transmittance_inverse 0 n p)) q Hq).
      rewrite read_exact by exact P1. apply W0.
    - (* forward, then backward *)
      rewrite propagate_backward by lra. rewrite (propagate_forward b s d (Some n)) in * by lra. cbv beta iota in V1 |- *.
      assert (resolved (pending s)) as P1 by (left; reflexivity).
      assert (seen b (read_ft b s 0%nat)) as S1 by (apply (seen_ext b (F 0%nat)); [intros q Hq; rewrite read_exact by exact P1; symmetry; apply W0|exact V]).
      destruct (interact_scalar b G k BK One s d n P1 N S1) as (A & Q & B). set (s1 := interact b s d n) in *.
      assert (pending s1 = 0%R) as P2 by (destruct Q as [Q|Q]; rewrite Q; reflexivity).
      assert (pending (move (move s1 d) (- d)) = 0%R) as P3 by (cbn [move pending]; rewrite P2; ring).
      assert (forall q, inside sh q -> read_ft b (move (move s1 d) (- d)) 0%nat q = read_ft b s1 0%nat q) as E.
      { intros q Hq. rewrite !read_exact by (left; assumption). rewrite !wave_move, <- Cmult_assoc, <- propagator_plus, Rplus_opp_r, propagator_0. ring. }
      assert (seen b (read_ft b (move (move s1 d) (- d)) 0%nat)) as S2.
      { apply (seen_ext b (read_ft b s1 0%nat)); [intros q Hq; symmetry; apply E, Hq|]. apply (seen_unmoved d). apply (seen_ext b (read_ft b (move s1 d) 0%nat)); [|exact V1].
        intros q Hq. rewrite read_exact by (cbn [move pending]; rewrite P2, Rplus_0_l; exact R). rewrite wave_move. unfold diffract. rewrite read_exact by (left; exact P2). rewrite (propagator_real b k) by assumption. reflexivity. }
      destruct (interact_scalar b G k BK One _ (- d) n (or_introl P3) N S2) as (A' & _ & _). intros q Hq. rewrite (A' q Hq).
      rewrite (transmit_ext b _ _ (transmit g fi (transmittance k (bn b) d n) (read_ft b s 0%nat))) by (intros q' Hq'; rewrite (E q' Hq'); apply A, Hq').
      rewrite (transmit_inverse _ _ _ (fun p _ => transmittance_inverse d n p) q Hq). rewrite read_exact by exact P1. apply W0.
  Qed.

  (** Power. *)
  Lemma spectrum_power f : (norm2 sh (to_spectrum g fi f) = INR (points sh) * norm2 sh f)%R.
  Proof.
    rewrite <- ft_norm2 by (apply G). apply rsum_over_ext. intros q Hq. fold sh in Hq. rewrite <- (to_spectrum_ft b) by assumption. unfold shift_ft. rewrite <- cis_neg, Cmod_mult, cis_mod. ring.
  Qed.
  Lemma space_power F : (norm2 sh F = INR (points sh) * norm2 sh (to_space g fi F))%R.
  Proof. rewrite <- spectrum_power. apply norm2_ext. intros q Hq. symmetry. apply (spectrum_space b G F q Hq). Qed.
  Lemma diffract_power d F : norm2 sh (diffract g axis k d F) = norm2 sh F.
  Proof. apply rsum_over_ext. intros q _. unfold diffract. rewrite Cmod_mult, cis_mod. ring. Qed.
  Lemma transmit_power t F : (forall p, inside sh p -> Cmod (t p) = 1%R) -> norm2 sh (transmit g fi t F) = norm2 sh F.
  Proof. intros T. unfold transmit. rewrite spectrum_power, (space_power F). f_equal. apply rsum_over_ext. intros p Hp. rewrite Cmod_mult, (T p Hp). ring. Qed.
  Lemma transmit_power_le t F : (forall p, inside sh p -> (Cmod (t p) <= 1)%R) -> (norm2 sh (transmit g fi t F) <= norm2 sh F)%R.
  Proof.
    intros T. unfold transmit. rewrite spectrum_power, (space_power F). apply Rmult_le_compat_l; [apply pos_INR|]. apply rsum_over_le. intros p Hp. rewrite Cmod_mult. specialize (T p Hp).
    pose proof (Cmod_ge_0 (t p)). pose proof (Cmod_ge_0 (to_space g fi F p)). set (x := Cmod (to_space g fi F p)) in *. set (y := Cmod (t p)) in *. assert (y * y <= 1)%R by nra. assert (0 <= x * x)%R by nra. replace (x * y * (x * y))%R with (x * x * (y * y))%R by ring. nra.
  Qed.
  Lemma transmittance_mod d n p : Cmod (transmittance k (bn b) d n p) = exp (- (k * d * snd (n p / bn b)%C)).
  Proof.
    unfold transmittance. cbv zeta. rewrite Cmod_mult, cis_mod, Rmult_1_r, Cmod_R, Rabs_pos_eq by (apply Rlt_le, exp_pos). f_equal.
    set (z := n p / bn b). destruct z as [x y]. unfold Ci, RtoC, Cmult, Cminus, Cplus, Copp. cbn. ring.
  Qed.
  Lemma slice_power s0 F d n : (0 < d)%R -> resolved d -> noticeable g (bn b) n -> seen b (F 0%nat) -> seen b (read_ft b (run b s0 [SetFt F; Propagate d (Some n)]) 0%nat) ->
    (forall p, inside sh p -> (0 <= snd (n p / bn b)%C)%R) ->
    (norm2 sh (read_field b (run b s0 [SetFt F; Propagate d (Some n)]) 0%nat) <= norm2 sh (read_field b (run b s0 [SetFt F]) 0%nat))%R /\
    ((forall p, inside sh p -> snd (n p / bn b)%C = 0%R) -> norm2 sh (read_field b (run b s0 [SetFt F; Propagate d (Some n)]) 0%nat) = norm2 sh (read_field b (run b s0 [SetFt F]) 0%nat)).
  Proof.
    intros D R N V V1 A. cbn [run fold_left act] in *. set (s := set_ft b F) in *.
    assert (resolved (pending s)) as P1 by (left; reflexivity).
    assert (forall q, wave b s 0%nat q = F 0%nat q) as W0 by (intros q; unfold wave, s, set_ft; cbn [field_hat pending]; rewrite project_scalar, propagator_0 by exact One; ring).
    assert (seen b (wave b s 0%nat)) as S1 by (apply (seen_ext b (F 0%nat)); [intros q Hq; symmetry; apply W0|exact V]).
    destruct (slice_forward b k G K BK One s d (Some n) D P1 N S1) as [W Q].
    assert (resolved (pending (propagate b s d (Some n)))) as P2.
    { destruct Q as [Q|Q]; rewrite Q; [exact R|]. unfold s, set_ft; cbn [pending]. rewrite Rplus_0_l. exact R. }
    assert (forall s', seen b (read_ft b s' 0%nat) -> norm2 sh (read_field b s' 0%nat) = norm2 sh (to_space g fi (read_ft b s' 0%nat))) as RF.
    { intros s' V'. apply norm2_ext. intros p Hp. apply read_field_space; [exact G|exact Hp|]. destruct V' as [V'|V']; [left; apply (bright_visible b One), V'|right; exact V']. }
    rewrite !RF; [|apply (seen_ext b (wave b s 0%nat)); [intros q Hq; symmetry; apply read_exact, P1|exact S1]|exact V1].
    assert (0 < INR (points sh))%R as NP by (apply lt_0_INR, points_pos, G).
    assert (norm2 sh (read_ft b (propagate b s d (Some n)) 0%nat) = norm2 sh (transmit g fi (transmittance k (bn b) d n) (read_ft b s 0%nat))) as E.
    { rewrite <- (diffract_power d (transmit _ _ _ _)). apply norm2_ext. intros q Hq. rewrite read_exact by exact P2. rewrite (W q Hq). unfold through, split_step, diffract. f_equal. apply transmit_ext. intros q' Hq'. symmetry. apply read_exact, P1. }
    split.
    - apply Rmult_le_reg_l with (INR (points sh)); [exact NP|]. rewrite <- !space_power, E. apply transmit_power_le. intros p Hp. rewrite transmittance_mod. rewrite <- exp_0.
      assert (- (k * d * snd (n p / bn b)%C) <= 0)%R as L by (specialize (A p Hp); assert (0 < k * d)%R by nra; nra). destruct L as [L|L]; [left; apply exp_increasing, L|right; rewrite L; reflexivity].
    - intros A0. apply Rmult_eq_reg_l with (INR (points sh)); [|lra]. rewrite <- !space_power, E. apply transmit_power. intros p Hp. rewrite transmittance_mod, (A0 p Hp), Rmult_0_r, Ropp_0. apply exp_0.
  Qed.

  (** Tolerances. *)
  Lemma weak_medium s d n : (forall p, inside sh p -> (Cmod (n p - n origin)%C <= / 100000000 + / 100000 * Cmod (n origin))%R) -> propagate b s d (Some n) = propagate b s d (Some (fun _ => n origin)).
  Proof.
    intros H. unfold propagate. assert (forall s', interact b s' d n = interact b s' d (fun _ => n origin)) as E; [|rewrite E; reflexivity].
    intros s'. unfold interact. rewrite (uniform_true b n H), (uniform_true b (fun _ => n origin)); [reflexivity|].
    intros p _. replace (n origin - n origin) with (RtoC 0) by ring. rewrite Cmod_0. pose proof (Cmod_ge_0 (n origin)). lra.
  Qed.
  Lemma dark_lost s0 F d n : extended b = true -> (0 < d)%R -> (forall q, inside sh q -> (Cmod (F 0%nat q) <= / 100000000)%R) -> uniform b n = false ->
    forall p q, inside sh q -> read_field b (run b s0 [SetFt F]) 0%nat p = 0 /\ read_ft b (run b s0 [SetFt F; Propagate d (Some n)]) 0%nat q = 0.
  Proof.
    intros E D W U p q Hq. cbn [run fold_left act]. set (s := set_ft b F).
    assert (forall p, read_field b s 0%nat p = 0) as Z.
    { intros p'. apply read_field_dark; [exact E|]. intros c q' Hc Hq'. rewrite One in Hc. replace c with 0%nat by lia. rewrite read_exact by (left; reflexivity). unfold wave, s, set_ft. cbn [field_hat pending]. rewrite project_scalar, propagator_0, Cmult_1_r by exact One. apply W, Hq'. }
    split; [apply Z|]. rewrite propagate_forward by exact D. unfold interact. rewrite U.
    assert (field_hat (set_field b (fun c p => read_field b s c p * cexp (Ci * bk b * excess b (n p) * RtoC d))) 0%nat q = 0) as H0.
    { rewrite set_field_spectrum by (assumption || lia). rewrite project_scalar by exact One. unfold to_spectrum. erewrite sum_over_ext; [apply sum_over_zero|]. intros p' _. cbn beta. rewrite Z. ring. }
    unfold read_ft, settle. destruct (tiny _); cbn [move field_hat]; rewrite H0; [reflexivity|ring].
  Qed.
  Lemma small_steps step media : (0 < step <= / 100000000)%R -> forall s F, agree sh (field_hat s 0%nat) F -> (Rabs (pending s) <= / 100000000)%R ->
    Forall (fun m => exists n, m = Some n /\ uniform b n = false) media -> 
    (forall i, (i < length media)%nat -> seen b (fold_left (fun F m => match m with None => F | Some n => transmit g fi (transmittance k (bn b) step n) F end) (firstn i media) F)) ->
    agree sh (read_ft b (traverse b s step media) 0%nat) (fold_left (fun F m => match m with None => F | Some n => transmit g fi (transmittance k (bn b) step n) F end) media F).
  Proof.
    intros St. induction media as [|m media IH]; intros s F A P M V.
    { cbn [traverse fold_left]. rewrite read_wave_off by exact P. exact A. }
    inversion M as [|? ? (n & -> & U) M']; subst. unfold traverse. cbn [fold_left]. apply IH.
    - rewrite propagate_forward by lra. cbn [move field_hat]. unfold interact. rewrite U. intros q Hq. rewrite set_field_spectrum by (assumption || lia). rewrite project_scalar by exact One.
      unfold transmit. apply (to_spectrum_ext b). intros p Hp. rewrite read_field_space; [|exact G|exact Hp|].
      + rewrite read_wave_off by exact P. rewrite (to_space_ext b _ _ p A). unfold transmittance, cexp, excess. rewrite BK. reflexivity.
      + specialize (V 0%nat ltac:(cbn; lia)). cbn [firstn fold_left] in V. destruct V as [V|V]; [left; apply (bright_visible b One)|right; exact V]. rewrite read_wave_off by exact P. apply (bright_ext b F); [intros q0 Hq0; symmetry; apply A, Hq0|exact V].
    - rewrite propagate_forward by lra. cbn [move pending]. unfold interact. rewrite U, set_field_pending, Rplus_0_l, Rabs_pos_eq by lra. lra.
    - exact M'.
    - intros i Hi. specialize (V (S i) ltac:(cbn; lia)). exact V.
  Qed.
  (** Without reading, the beam at the exit. *)
  Lemma traverse_background step n : forall s, field_hat (traverse b s step (background n)) = field_hat s /\ pending (traverse b s step (background n)) = (pending s + INR n * step)%R.
  Proof.
    induction n as [|n IH]; intros s; [cbn; split; [reflexivity|ring]|]. unfold traverse, background. cbn [repeat fold_left]. destruct (IH (propagate b s step None)) as [E1 E2]. unfold traverse, background in E1, E2. rewrite E1, E2, S_INR, propagate_none.
    destruct (Req_EM_T step 0) as [->|]; cbn [move field_hat pending]; split; try reflexivity; ring.
  Qed.
  Lemma exit_field F first step n : resolved (first + (INR n - 1) * step) -> seen b (F 0%nat) ->
    agree sh (read_field b (traverse b (enter b (set_ft b F) first step) step (background n)) 0%nat) (to_space g fi (diffract g axis k (first + (INR n - 1) * step) (F 0%nat))).
  Proof.
    intros R V p Hp. set (s := traverse _ _ _ _). destruct (traverse_background step n (enter b (set_ft b F) first step)) as [E1 E2]. fold s in E1, E2.
    destruct (enter_state b (set_ft b F) first step) as [E3 E4]. rewrite E4 in E1. rewrite E3 in E2. cbn [set_ft field_hat pending] in E1, E2.
    assert (pending s = (first + (INR n - 1) * step)%R) as P by (rewrite E2; ring).
    assert (forall q, read_ft b s 0%nat q = diffract g axis k (first + (INR n - 1) * step) (F 0%nat) q) as A.
    { intros q. rewrite read_exact by (rewrite P; exact R). unfold wave. rewrite P, E1, project_scalar by exact One. rewrite (propagator_real b k) by assumption. reflexivity. }
    rewrite read_field_space; [|exact G|exact Hp|].
    - apply (to_space_ext b). intros q _. apply A.
    - destruct V as [(q & Hq & H)|V]; [left; apply (bright_visible b One); exists q; split; [exact Hq|]; rewrite A; unfold diffract; rewrite Cmod_mult, cis_mod, Rmult_1_r; exact H|right; exact V].
  Qed.
End Scalar.
