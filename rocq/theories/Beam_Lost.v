(** A vector beam that loses power in a medium without loss. *)
From Coq Require Import Reals List Arith Bool ZArith Lia Lra Psatz FunctionalExtensionality.
Require Import Verif.Base Verif.CSum Verif.Field Verif.Fourier_Model Verif.Fourier_Spec Verif.Fourier_Proofs Verif.Vec_Model Verif.Vec_Spec Verif.Vec_Proofs Verif.Modes_Model Verif.Modes_Proofs.
Require Import Verif.Beam_Model Verif.Beam_Spec Verif.Beam_Proofs Verif.Beam_Media Verif.Beam_Slices Verif.Beam_More Verif.Beam_Vector Verif.Beam_Power Verif.Cplx.
Import ListNotations.
Local Open Scope R_scope.
Local Open Scope C_scope.

Definition sheet3 : setup := {| bgrid := {| rshape := [1; 1; 3]%nat; rstep := [1%R; 0%R; 1%R] |}; bfirst := fun _ => 0%R; bk := RtoC 1; bn := RtoC 1; baxis := 0; bcomp := 3 |}.
(** A plane wave along the axis, polarized along the direction in which the medium varies. *)
Definition polarized : vfield := fun c q => if ((c =? 2)%nat && idx_eqb q [0; 0; 0]%nat)%bool then RtoC 1 else RtoC 0.
Definition half_wave : sfield := fun p => if idx_eqb p [0; 0; 1]%nat then RtoC (1 + PI) else RtoC 1.
Notation g := (bgrid sheet3).

Lemma sheet3_grid : section_grid g 0.
Proof. repeat split; try (cbn; lia); try (repeat constructor; lia). intros c Hc H. destruct c as [|[|[|]]]; cbn in *; lia || lra. Qed.
Lemma sheet3_points q : inside (bshape sheet3) q -> q = [0; 0; 0]%nat \/ q = [0; 0; 1]%nat \/ q = [0; 0; 2]%nat.
Proof.
  intros H. cbn in H. inversion H as [|? i ? p H0 H']; subst. inversion H' as [|? j ? p' H1 H'']; subst. inversion H'' as [|? l ? p'' H2 H3]; subst. inversion H3; subst.
  assert (i = 0)%nat by lia. assert (j = 0)%nat by lia. subst. assert (l = 0 \/ l = 1 \/ l = 2)%nat as [->|[->| ->]] by lia; tauto.
Qed.
Lemma kvec1 j : kvec g 1 [0; 0; j]%nat = 0%R.
Proof. unfold kvec, k_axis. cbn [sheet3 bgrid rshape rstep nth]. change (k_index 1 0) with 0%Z. unfold Rdiv. ring. Qed.
Lemma kvec0 j : kvec g 0 [0; 0; j]%nat = 0%R.
Proof. unfold kvec, k_axis. cbn [sheet3 bgrid rshape rstep nth]. change (k_index 1 0) with 0%Z. unfold Rdiv. ring. Qed.
Lemma kvec2 j : kvec g 2 [0; 0; j]%nat = (2 * PI / 3 * IZR (k_index 3 j))%R.
Proof. unfold kvec, k_axis. cbn [sheet3 bgrid rshape rstep nth INR]. field. Qed.
Lemma sheet3_kt2 j : kt2 g 0 [0; 0; j]%nat = (2 * PI / 3 * IZR (k_index 3 j) * (2 * PI / 3 * IZR (k_index 3 j)))%R.
Proof. unfold kt2. rewrite rsum3. cbn [Nat.eqb]. rewrite kvec1, kvec2. ring. Qed.
Lemma wv0 c : (c < 3)%nat -> wave_vector g 0 1 c [0; 0; 0]%nat = if (c =? 0)%nat then 1%R else 0%R.
Proof.
  intros H. unfold wave_vector, axial. destruct (lt3 c H) as [->|[->| ->]]; cbn [Nat.eqb].
  - rewrite sheet3_kt2. change (k_index 3 0) with 0%Z. rewrite !Rmult_0_r. replace (1 * 1 - 0)%R with 1%R by ring. rewrite Rmax_right by lra. apply sqrt_1.
  - apply kvec1.
  - rewrite kvec2. change (k_index 3 0) with 0%Z. ring.
Qed.
Lemma wv_side j c : (j = 1 \/ j = 2)%nat -> (c < 3)%nat -> exists w, (0 < w * w)%R /\ wave_vector g 0 1 c [0; 0; j]%nat = if (c =? 2)%nat then w else 0%R.
Proof.
  intros Hj H. exists (kvec g 2 [0; 0; j]%nat). pose proof PI2_1 as P. unfold PI2 in P.
  assert (1 < kt2 g 0 [0; 0; j]%nat)%R as L. { rewrite sheet3_kt2. destruct Hj as [-> | ->]; [change (k_index 3 1) with 1%Z|change (k_index 3 2) with (-1)%Z]; nra. }
  split; [rewrite sheet3_kt2, <- kvec2 in L; lra|]. unfold wave_vector. destruct (lt3 c H) as [->|[->| ->]]; cbn [Nat.eqb]; [|apply kvec1|reflexivity].
  apply evanescent_axial. unfold propagates. intros X. cbn [baxis sheet3 bgrid] in *. lra.
Qed.
Lemma wv_side2 j : (j = 1 \/ j = 2)%nat -> exists w, (0 < w * w)%R /\ forall c, (c < 3)%nat -> wave_vector g 0 1 c [0; 0; j]%nat = if (c =? 2)%nat then w else 0%R.
Proof.
  intros Hj. destruct (wv_side j 2 Hj ltac:(lia)) as (w & W & E). exists w. split; [exact W|]. intros c Hc. destruct (wv_side j c Hj Hc) as (w' & _ & E'). rewrite E'. destruct (Nat.eqb_spec c 2) as [->|]; [|reflexivity].
  cbn [Nat.eqb] in *. rewrite <- E, <- E'. reflexivity.
Qed.
Lemma part_side (F : vfield) j c : (j = 1 \/ j = 2)%nat -> (c < 3)%nat -> (forall i, (i < 2)%nat -> F i [0; 0; j]%nat = 0) -> transverse_part g 0 1 F c [0; 0; j]%nat = 0.
Proof.
  intros Hj Hc Z. destruct (wv_side2 j Hj) as (w & W & E). unfold transverse_part. rewrite csum3, rsum3. rewrite !E by lia. rewrite (Z 0%nat), (Z 1%nat) by lia. cbn [Nat.eqb].
  assert (RtoC w <> 0) as NW by (intros X; apply RtoC_inj in X; subst w; lra).
  destruct (lt3 c Hc) as [->|[->| ->]]; cbn [Nat.eqb]; rewrite ?Z by lia; try (unfold Cdiv; ring).
  replace (0 * 0 + 0 * 0 + w * w)%R with (w * w)%R by ring. rewrite RtoC_mult. field. exact NW.
Qed.
Lemma part_axis (F : vfield) c : (c < 3)%nat -> transverse_part g 0 1 F c [0; 0; 0]%nat = if (c =? 0)%nat then 0 else F c [0; 0; 0]%nat.
Proof.
  intros Hc. unfold transverse_part. rewrite csum3, rsum3. rewrite !wv0 by lia. cbn [Nat.eqb]. replace (1 * 1 + 0 * 0 + 0 * 0)%R with 1%R by ring.
  destruct (lt3 c Hc) as [->|[->| ->]]; cbn [Nat.eqb]; field; intros X; apply RtoC_inj in X; lra.
Qed.
Lemma polarized_transverse : transverse g 0 1 polarized.
Proof.
  intros q. rewrite csum3. unfold polarized. cbn [Nat.eqb andb]. destruct (idx_eqb_spec q [0; 0; 0]%nat) as [->|]; [|ring]. rewrite (wv0 2) by lia. cbn [Nat.eqb]. ring.
Qed.
Lemma half_wave_transmits p : inside (bshape sheet3) p -> transmittance 1 1 1 half_wave p = if idx_eqb p [0; 0; 1]%nat then RtoC (-1) else RtoC 1.
Proof.
  intros _. unfold transmittance, half_wave. cbv zeta.
  assert (forall x, Ci * RtoC 1 * (RtoC x / RtoC 1 - 1) * RtoC 1 = (0, x - 1)%R) as E.
  { intros x. unfold Cdiv. rewrite <- RtoC_inv, Rinv_1 by lra. unfold Ci, RtoC, Cmult, Cminus, Cplus, Copp. cbn. f_equal; ring. }
  destruct (idx_eqb p _); rewrite E; cbn [fst snd]; rewrite exp_0.
  - replace (1 + PI - 1)%R with PI by ring. unfold cis. rewrite cos_PI, sin_PI. unfold RtoC, Cmult. cbn. f_equal; ring.
  - replace (1 - 1)%R with 0%R by ring. rewrite cis_0. ring.
Qed.
Lemma half_wave_noticeable : noticeable g (bn sheet3) half_wave.
Proof.
  left. exists [0; 0; 1]%nat. split; [repeat constructor|]. unfold half_wave. replace (idx_eqb [0; 0; 0]%nat [0; 0; 1]%nat) with false by reflexivity. replace (idx_eqb [0; 0; 1]%nat [0; 0; 1]%nat) with true by reflexivity.
  pose proof PI2_1 as P. unfold PI2 in P. rewrite <- RtoC_minus, !Cmod_R, !Rabs_pos_eq; lra.
Qed.
Lemma half_wave_lossless p : snd (half_wave p / bn sheet3)%C = 0%R.
Proof. unfold half_wave. cbn [sheet3 bn]. unfold Cdiv. rewrite <- RtoC_inv, Rinv_1 by lra. destruct (idx_eqb _ _); unfold RtoC, Cmult; cbn; ring. Qed.
Definition passed : vfield := fun i => transmit g (bfirst sheet3) (transmittance 1 (bn sheet3) 1 half_wave) (polarized i).
Lemma passed_zero i q : (i < 2)%nat -> passed i q = 0.
Proof.
  intros Hi. unfold passed, transmit. rewrite (to_spectrum_ext sheet3 _ (fun p => 0 * polarized i p)); [rewrite to_spectrum_scal; ring|].
  intros p _. unfold to_space. rewrite (sum_over_ext _ _ (fun q => 0 * polarized i q)). 
  - rewrite sum_over_scal. unfold Cdiv. ring.
  - intros q' _. unfold polarized. destruct i as [|[|]]; [| |lia]; cbn [Nat.eqb andb]; ring.
Qed.
Lemma passed_axis : passed 2%nat [0; 0; 0]%nat = RtoC (/ 3).
Proof.
  unfold passed, transmit, to_spectrum. assert (forall j, (j < 3)%nat -> to_space g (bfirst sheet3) (polarized 2%nat) [0; 0; j]%nat = RtoC (/ 3)) as E.
  { intros j Hj. unfold to_space. cbn [sheet3 bgrid rshape sum_over csum points fold_right Nat.mul Nat.add]. unfold polarized. cbn [Nat.eqb andb].
    replace (idx_eqb [0; 0; 0]%nat [0; 0; 0]%nat) with true by reflexivity. replace (idx_eqb [0; 0; 1]%nat [0; 0; 0]%nat) with false by reflexivity. replace (idx_eqb [0; 0; 2]%nat [0; 0; 0]%nat) with false by reflexivity.
    rewrite rsum3. fold (bgrid sheet3). change {| rshape := [1; 1; 3]%nat; rstep := [1%R; 0%R; 1%R] |} with (bgrid sheet3). rewrite kvec0, kvec1, kvec2. change (k_index 3 0) with 0%Z.
    rewrite !Rmult_0_r, !Rmult_0_l. rewrite !Rplus_0_r, cis_0. cbn [INR]. rewrite RtoC_inv by lra. replace (1 + 1 + 1)%R with 3%R by ring. field. intros X. apply RtoC_inj in X. lra. }
  cbn [sheet3 bgrid rshape sum_over csum]. change {| rshape := [1; 1; 3]%nat; rstep := [1%R; 0%R; 1%R] |} with (bgrid sheet3). fold sheet3. change (fun _ : nat => 0%R) with (bfirst sheet3).
  rewrite !E by lia. rewrite !half_wave_transmits by (repeat constructor). rewrite !rsum3, kvec0, kvec1, kvec2. change (k_index 3 0) with 0%Z. rewrite !Rmult_0_r, !Rmult_0_l, !Rplus_0_r, Ropp_0, cis_0.
  replace (idx_eqb [0; 0; 0]%nat [0; 0; 1]%nat) with false by reflexivity. replace (idx_eqb [0; 0; 1]%nat [0; 0; 1]%nat) with true by reflexivity. replace (idx_eqb [0; 0; 2]%nat [0; 0; 1]%nat) with false by reflexivity.
  replace (RtoC (-1)) with (- (1)) by (unfold RtoC, Copp; cbn; f_equal; ring). ring.
Qed.
Lemma sum_sheet3 (f : list nat -> R) : rsum_over (bshape sheet3) f = (f [0; 0; 0]%nat + f [0; 0; 1]%nat + f [0; 0; 2]%nat)%R.
Proof. cbn. ring. Qed.
Lemma polarized_power : vnorm2 3 (bshape sheet3) polarized = 1%R.
Proof.
  rewrite vnorm2_three. rewrite sum_sheet3. unfold polarized. cbn [Nat.eqb andb].
  replace (idx_eqb [0; 0; 0]%nat [0; 0; 0]%nat) with true by reflexivity. replace (idx_eqb [0; 0; 1]%nat [0; 0; 0]%nat) with false by reflexivity. replace (idx_eqb [0; 0; 2]%nat [0; 0; 0]%nat) with false by reflexivity.
  rewrite Cmod_0, Cmod_1. ring.
Qed.
Lemma passed_power : vnorm2 3 (bshape sheet3) (transverse_part g 0 1 passed) = (/ 9)%R.
Proof.
  rewrite vnorm2_three, sum_sheet3. rewrite !part_axis by lia. cbn [Nat.eqb].
  rewrite !(part_side passed 1) by (lia || (intros i Hi; apply passed_zero, Hi)). rewrite !(part_side passed 2) by (lia || (intros i Hi; apply passed_zero, Hi)).
  rewrite (passed_zero 1) by lia. rewrite passed_axis. rewrite !Cmod_R, Rabs_R0, Rabs_pos_eq by lra. field.
Qed.
Lemma polarized_bright : bright_vector (bshape sheet3) polarized.
Proof. exists 2%nat, [0; 0; 0]%nat. split; [lia|]. split; [repeat constructor|]. unfold polarized. cbn [Nat.eqb andb]. replace (idx_eqb _ _) with true by reflexivity. rewrite Cmod_1. lra. Qed.
Lemma before s : read_ft sheet3 (run sheet3 s [SetFt polarized]) = field_hat (set_ft sheet3 polarized) /\ vnorm2 3 (bshape sheet3) (field_hat (set_ft sheet3 polarized)) = 1%R.
Proof.
  split; [apply read_wave_off; cbn; rewrite Rabs_R0; lra|]. rewrite <- polarized_power. apply vnorm2_ext. intros c q Hc _. cbn [set_ft field_hat]. rewrite (project_part sheet3 1 sheet3_grid Rlt_0_1 eq_refl eq_refl) by exact Hc.
  rewrite part_transverse by exact polarized_transverse. reflexivity.
Qed.
Lemma after s : vnorm2 3 (bshape sheet3) (read_ft sheet3 (run sheet3 s [SetFt polarized; Propagate 1 (Some half_wave)])) = (/ 9)%R.
Proof.
  rewrite <- passed_power. cbn [run fold_left act]. set (s0 := set_ft sheet3 polarized).
  assert (forall c q, (c < 3)%nat -> wave sheet3 s0 c q = polarized c q) as W0.
  { intros c q Hc. unfold wave, s0. cbn [set_ft field_hat pending]. rewrite propagator_0, (project_part sheet3 1 sheet3_grid Rlt_0_1 eq_refl eq_refl) by exact Hc. rewrite part_transverse by exact polarized_transverse. ring. }
  assert (transverse g 0 1 (field_hat s0)) as T by exact (project_transverse sheet3 1 sheet3_grid Rlt_0_1 eq_refl eq_refl polarized).
  assert (vseen sheet3 (wave sheet3 s0)) as V by (apply (vseen_ext sheet3 polarized); [intros c q Hc _; symmetry; apply W0, Hc|left; exact polarized_bright]).
  destruct (vslice_forward sheet3 1 sheet3_grid Rlt_0_1 eq_refl eq_refl s0 1 (Some half_wave) Rlt_0_1 (or_introl eq_refl) half_wave_noticeable T V) as [W _].
  apply vnorm2_ext. intros c q Hc Hq. rewrite (read_mod sheet3 1 sheet3_grid Rlt_0_1 eq_refl).
  replace (Cmod (field_hat _ c q)) with (Cmod (wave sheet3 (propagate sheet3 s0 1 (Some half_wave)) c q)) by (unfold wave; rewrite Cmod_mult, (propagator_mod sheet3 1 sheet3_grid Rlt_0_1 eq_refl); ring).
  rewrite (W c q Hc Hq). unfold vector_through, diffract. rewrite Cmod_mult, cis_mod, Rmult_1_r. f_equal. apply part_ext; [exact Hc|]. intros i Hi. apply (transmit_ext sheet3). intros q' _. apply W0, Hi.
Qed.
Lemma power_lost s : (vnorm2 3 (bshape sheet3) (read_ft sheet3 (run sheet3 s [SetFt polarized; Propagate 1 (Some half_wave)])) = vnorm2 3 (bshape sheet3) (read_ft sheet3 (run sheet3 s [SetFt polarized])) / 9)%R.
Proof. destruct (before s) as [-> ->]. rewrite after. field. Qed.
Lemma not_reversed s : exists c q, (c < 3)%nat /\ inside (bshape sheet3) q /\ read_ft sheet3 (run sheet3 s [SetFt polarized; Propagate 1 (Some half_wave); Propagate (-1) (Some half_wave)]) c q <> read_ft sheet3 (run sheet3 s [SetFt polarized]) c q.
Proof.
  set (A := read_ft sheet3 (run sheet3 s [SetFt polarized; Propagate 1 (Some half_wave); Propagate (-1) (Some half_wave)])). set (B := read_ft sheet3 (run sheet3 s [SetFt polarized])).
  assert (vnorm2 3 (bshape sheet3) A < vnorm2 3 (bshape sheet3) B)%R as L.
  { unfold B. destruct (before s) as [-> ->]. apply Rle_lt_trans with (/ 9)%R; [|lra]. rewrite <- (after s). unfold A. change (run sheet3 s [SetFt polarized; Propagate 1 (Some half_wave); Propagate (-1) (Some half_wave)]) with (run sheet3 (run sheet3 s [SetFt polarized; Propagate 1 (Some half_wave)]) [Propagate (-1) (Some half_wave)]).
    apply (run_power_ft sheet3 1 sheet3_grid Rlt_0_1 eq_refl (or_intror eq_refl)). constructor; [|constructor]. intros p _. rewrite half_wave_lossless. lra. }
  assert (forall l, (forall p, In p l -> inside (bshape sheet3) (snd p) /\ (fst p < 3)%nat) -> (exists p, In p l /\ A (fst p) (snd p) <> B (fst p) (snd p)) \/ forall p, In p l -> A (fst p) (snd p) = B (fst p) (snd p)) as D.
  { induction l as [|p l IH]; intros H; [right; intros p []|]. destruct (Ceq_dec (A (fst p) (snd p)) (B (fst p) (snd p))) as [E|E]; [|left; exists p; split; [left; reflexivity|exact E]].
    destruct IH as [(p' & I & N)|N]; [intros p' I; apply H; right; exact I|left; exists p'; split; [right; exact I|exact N]|right]. intros p' [<-|I]; [exact E|apply N, I]. }
  destruct (D (list_prod [0; 1; 2]%nat [[0; 0; 0]; [0; 0; 1]; [0; 0; 2]]%nat)) as [([c q] & I & N)|N].
  - intros [c q] I. apply in_prod_iff in I as [I1 I2]. cbn [fst snd]. split; [|cbn in I1; lia]. cbn in I2. destruct I2 as [<-|[<-|[<-|[]]]]; repeat constructor.
  - exists c, q. apply in_prod_iff in I as [I1 I2]. split; [cbn in I1; lia|]. split; [|exact N]. cbn in I2. destruct I2 as [<-|[<-|[<-|[]]]]; repeat constructor.
  - exfalso. assert (vnorm2 3 (bshape sheet3) A = vnorm2 3 (bshape sheet3) B) as E; [|rewrite E in L; lra]. apply vnorm2_ext. intros c q Hc Hq. f_equal. apply (N (c, q)). apply in_prod_iff. split; [cbn; lia|]. destruct (sheet3_points q Hq) as [->|[->| ->]]; cbn; tauto.
Qed.
