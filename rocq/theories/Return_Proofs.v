(** Proofs about beams in opposite directions: C200. *)
From Coq Require Import Reals List Arith Bool ZArith Lia Lra Psatz FunctionalExtensionality.
Require Import Verif.Base Verif.CSum Verif.Field Verif.Fourier_Model Verif.Fourier_Spec Verif.Fourier_Proofs Verif.Vec_Model Verif.Vec_Spec Verif.Vec_Proofs Verif.Modes_Model Verif.Modes_Proofs.
Require Import Verif.Solver_Convergence Verif.Magnetic_Norm Verif.Robust_Spec Verif.Robust_Proofs Verif.Symmetry_Spec Verif.Symmetry_Reciprocity.
Require Import Verif.Beam_Model Verif.Beam_Spec Verif.Beam_Proofs Verif.Beam_Media Verif.Beam_Slices Verif.Beam_More Verif.Beam_Vector Verif.Beam_Power Verif.Nearby_Spec Verif.Nearby_Proofs Verif.Neglect_Spec Verif.Neglect_Proofs Verif.Detour_Spec Verif.Detour_Proofs Verif.Divide_Spec Verif.Divide_Proofs Verif.Bounds_Proofs Verif.Return_Spec Verif.Cplx.
Import ListNotations.
Local Open Scope R_scope.
Local Open Scope C_scope.

Lemma neg_neg s q : inside s q -> neg s (neg s q) = q.
Proof. induction 1 as [|n i s q Hi Hq IH]; [reflexivity|]. cbn [neg]. rewrite IH. f_equal. unfold neg1. destruct (Nat.eqb_spec i 0) as [->|E]; [reflexivity|]. destruct (Nat.eqb_spec (n - i) 0); lia. Qed.
Lemma pair_ift s h F : sum_over s (fun p => h p * ift s F p) = sum_over s (fun q => F q * ft s h (neg s q)) / RtoC (INR (points s)).
Proof.
  unfold ift, Cdiv. rewrite (sum_over_ext s _ (fun p => sum_over s (fun q => h p * (F q * cis (phase s p q))) * / RtoC (INR (points s)))) by (intros p _; rewrite sum_over_scal; ring).
  rewrite sum_over_scal_r. f_equal. rewrite sum_over_swap. apply sum_over_ext. intros q Hq. unfold ft. rewrite <- sum_over_scal. apply sum_over_ext. intros p Hp. rewrite (cis_neg (phase s p (neg s q))), cis_phase_neg, cis_neg, Cconj_conj by assumption. ring.
Qed.
Lemma even_filter s a h u : (forall q, inside s q -> a (neg s q) = a q) -> sum_over s (fun p => h p * ift s (fun q => ft s u q * a q) p) = sum_over s (fun p => u p * ift s (fun q => ft s h q * a q) p).
Proof.
  intros A. rewrite !pair_ift. f_equal. rewrite <- sum_over_neg. apply sum_over_ext. intros q Hq. rewrite (neg_neg s q Hq), A by exact Hq. ring.
Qed.

Section Return.
  Variables (b : setup) (k d : R).
  Hypotheses (G : section_grid (bgrid b) (baxis b)) (K : (0 < k)%R) (BK : bk b = RtoC k) (One : bcomp b = 1%nat) (Bn : bn b <> 0).
  Notation g := (bgrid b).
  Notation axis := (baxis b).
  Notation fi := (bfirst b).
  Notation sh := (bshape b).
  Notation sz := (size (bcomp b) sh).

  Lemma axial_neg q : inside sh q -> axial g axis k (neg sh q) = axial g axis k q.
  Proof.
    intros Hq. unfold axial. do 3 f_equal. unfold kt2. apply rsum_ext. intros c Hc. destruct (c =? axis)%nat; [reflexivity|]. apply kvec_neg_square; [exact Hq|]. destruct G as (L & _). unfold rndim. rewrite L. exact Hc.
  Qed.
  Definition spread (u : sfield) : sfield := to_space g fi (diffract g axis k d (to_spectrum g fi u)).
  Definition filter (m : option sfield) (p : list nat) : C := match m with None => 1 | Some n => transmittance k (bn b) d n p end.
  Definition pass (u : sfield) (m : option sfield) : sfield := spread (fun p => u p * filter m p).
  Definition passes (l : list (option sfield)) (u : sfield) : sfield := fold_left pass l u.
  Notation pair h u := (sum_over sh (fun p => h p * u p)).
  Lemma spread_ext u v : agree sh u v -> forall p, spread u p = spread v p.
  Proof. intros E p. unfold spread. apply (to_space_ext b). intros q _. unfold diffract. f_equal. apply (to_spectrum_ext b). exact E. Qed.
  Lemma spread_ift u p : inside sh p -> spread u p = ift sh (fun q => ft sh u q * cis (d * axial g axis k q)) p.
  Proof.
    intros Hp. unfold spread. rewrite <- (to_space_ift b) by assumption. apply ift_ext. intros q Hq. unfold diffract. rewrite <- (to_spectrum_ft b) by assumption.
    replace (ft sh u q * Cconj (shift_ft b q) * cis (d * axial g axis k q) * shift_ft b q) with (ft sh u q * cis (d * axial g axis k q) * (Cconj (shift_ft b q) * shift_ft b q)) by ring. unfold shift_ft. rewrite cis_unit. ring.
  Qed.
  Lemma spread_sym h u : pair h (spread u) = pair u (spread h).
  Proof.
    rewrite (sum_over_ext sh (fun p => h p * spread u p) (fun p => h p * ift sh (fun q => ft sh u q * cis (d * axial g axis k q)) p)) by (intros p Hp; rewrite spread_ift by exact Hp; reflexivity).
    rewrite (sum_over_ext sh (fun p => u p * spread h p) (fun p => u p * ift sh (fun q => ft sh h q * cis (d * axial g axis k q)) p)) by (intros p Hp; rewrite spread_ift by exact Hp; reflexivity).
    apply even_filter. intros q Hq. rewrite axial_neg by exact Hq. reflexivity.
  Qed.
  Lemma passes_rev l : forall f h, pair h (passes l (spread f)) = pair f (passes (rev l) (spread h)).
  Proof.
    induction l as [|m l IH]; intros f h; [apply spread_sym|]. cbn [rev]. unfold passes in *. cbn [fold_left]. rewrite fold_left_app. cbn [fold_left]. unfold pass at 2. rewrite IH.
    unfold pass at 2. rewrite spread_sym. apply sum_over_ext. intros p _. ring.
  Qed.
  Lemma exact_pass m F u : agree sh (to_space g fi (F 0%nat)) u -> agree sh (to_space g fi (exact_slice b k (d, m) F 0%nat)) (pass u m).
  Proof.
    intros E p Hp. unfold exact_slice. rewrite One. cbn [Nat.eqb fst snd]. unfold pass, spread. apply (to_space_ext b). intros q Hq. destruct m as [n|]; cbn [through filter].
    - unfold split_step, diffract, transmit. f_equal. apply (to_spectrum_ext b). intros r Hr. rewrite E by exact Hr. reflexivity.
    - unfold diffract. f_equal. rewrite (to_spectrum_ext b _ (to_space g fi (F 0%nat))) by (intros r Hr; rewrite E by exact Hr; ring). symmetry. exact (spectrum_space b G (F 0%nat) q Hq).
  Qed.
  Lemma exact_passes l : forall F u, agree sh (to_space g fi (F 0%nat)) u -> agree sh (to_space g fi (exact_slices b k (map (fun m => (d, m)) l) F 0%nat)) (passes l u).
  Proof.
    induction l as [|m l IH]; intros F u E; [exact E|]. exact (IH _ _ (exact_pass m F u E)).
  Qed.
  Definition ideal (l : list (option sfield)) (f : vfield) : vfield := fun c => to_space g fi (exact_slices b k (outward d l) (exact_start b k (fun c => to_spectrum g fi (f c))) c).
  Lemma ideal_passes l f : agree sh (ideal l f 0%nat) (passes l (spread (f 0%nat))).
  Proof.
    intros p Hp. unfold ideal, outward. rewrite (exact_passes (None :: l) _ (f 0%nat)); [|unfold exact_start; rewrite One; cbn [Nat.eqb]; exact (space_spectrum b G (f 0%nat))|exact Hp].
    unfold passes. cbn [fold_left]. f_equal. f_equal. apply functional_extensionality. intros r. unfold pass. apply spread_ext. intros q _. cbn [filter]. ring.
  Qed.
  Lemma ideal_reciprocal l f h : product 1 sh h (ideal l f) = product 1 sh f (ideal (rev l) h).
  Proof.
    unfold product. cbn [csum]. rewrite !Cplus_0_l. rewrite (sum_over_ext sh _ (fun p => h 0%nat p * passes l (spread (f 0%nat)) p)) by (intros p Hp; rewrite ideal_passes by exact Hp; reflexivity). rewrite passes_rev.
    apply sum_over_ext. intros p Hp. rewrite ideal_passes by exact Hp. reflexivity.
  Qed.
  Lemma product_near h X Y : (Cmod (product 1 sh h X - product 1 sh h Y)%C <= sz h * gap b X Y)%R.
  Proof.
    rewrite One. replace (product 1 sh h X - product 1 sh h Y) with (vip 1 sh (conjugated h) (fun c p => X c p - Y c p)).
    - unfold gap. rewrite One. unfold size. rewrite <- sqrt_mult by apply vnorm2_nonneg. rewrite <- (sqrt_square (Cmod _)) by apply Cmod_ge_0. apply sqrt_le_1_alt. replace (vnorm2 1 sh h) with (vnorm2 1 sh (conjugated h)).
      + unfold vip, vnorm2. cbn [csum rsum]. rewrite Cplus_0_l, !Rplus_0_l. apply cauchy_schwarz.
      + unfold vnorm2. cbn [rsum]. f_equal. apply rsum_over_ext. intros p _. unfold conjugated. rewrite Cmod_conj. reflexivity.
    - rewrite <- product_vip. pose proof (product_minus 1 sh 1 1 h X Y) as M. rewrite !Cmult_1_l in M. rewrite <- M. f_equal. apply functional_extensionality. intros c. apply functional_extensionality. intros p. ring.
  Qed.
  Lemma outward_passive l : (0 < d)%R -> Forall (fun m => passive_slice b (d, m)) l -> Forall (passive_slice b) (outward d l).
  Proof. intros D A. unfold outward. cbn [map]. constructor; [split; [exact D|exact I]|]. apply Forall_map. exact A. Qed.
  Lemma field_reciprocal l f h s s' : (0 < d)%R -> Forall (fun m => passive_slice b (d, m)) l ->
    (Cmod (product 1 sh h (read_field b (run b s (SetField f :: there (outward d l)))) - product 1 sh f (read_field b (run b s' (SetField h :: there (inward d l)))))%C <=
     (all_neglected b k (outward d l) + all_neglected b k (inward d l) + 2 * (k * / 100000000)) * (sz f * sz h) + (INR (slices (there (outward d l)) + 1) * sz h + INR (slices (there (inward d l)) + 1) * sz f) * / 100000000)%R.
  Proof.
    intros D A. assert (bcomp b = 1%nat \/ bcomp b = 3%nat) as Comp by (left; exact One). assert (Forall (fun m => passive_slice b (d, m)) (rev l)) as A' by (apply Forall_rev, A).
    pose proof (neglect_space b k G K BK Comp Bn f (outward d l) s (outward_passive l D A)) as N. pose proof (neglect_space b k G K BK Comp Bn h (inward d l) s' (outward_passive (rev l) D A')) as N'.
    replace (sqrt (INR (bcomp b)) / 100000000)%R with (/ 100000000)%R in N, N' by (rewrite One; cbn [INR]; rewrite sqrt_1; field).
    fold (ideal l f) in N. unfold inward in N'. fold (ideal (rev l) h) in N'. fold (inward d l) in N'.
    set (X := read_field b (run b s (SetField f :: there (outward d l)))) in *. set (Y := read_field b (run b s' (SetField h :: there (inward d l)))) in *.
    pose proof (product_near h X (ideal l f)) as P. pose proof (product_near f Y (ideal (rev l) h)) as P'. rewrite <- ideal_reciprocal in P'. set (z := product 1 sh h (ideal l f)) in *.
    replace (product 1 sh h X - product 1 sh f Y) with ((product 1 sh h X - z) + (- (product 1 sh f Y - z))) by ring. eapply Rle_trans; [apply Cmod_triangle|]. rewrite Cmod_opp.
    assert (0 <= sz f)%R as Sf by apply size_nonneg. assert (0 <= sz h)%R as Sh by apply size_nonneg.
    assert (sz h * gap b X (ideal l f) <= sz h * ((all_neglected b k (outward d l) + k * / 100000000) * sz f + INR (slices (there (outward d l)) + 1) * / 100000000))%R by (apply Rmult_le_compat_l; assumption).
    assert (sz f * gap b Y (ideal (rev l) h) <= sz f * ((all_neglected b k (inward d l) + k * / 100000000) * sz h + INR (slices (there (inward d l)) + 1) * / 100000000))%R by (apply Rmult_le_compat_l; assumption). lra.
  Qed.
End Return.
