(** Proofs about vector beams in opposite directions: C200. *)
From Coq Require Import Reals List Arith Bool ZArith Lia Lra Psatz FunctionalExtensionality.
Require Import Verif.Base Verif.CSum Verif.Field Verif.Fourier_Model Verif.Fourier_Spec Verif.Fourier_Proofs Verif.Vec_Model Verif.Vec_Spec Verif.Vec_Proofs Verif.Modes_Model Verif.Modes_Proofs.
Require Import Verif.Solver_Convergence Verif.Magnetic_Norm Verif.Robust_Spec Verif.Robust_Proofs Verif.Symmetry_Spec Verif.Symmetry_Reciprocity.
Require Import Verif.Beam_Model Verif.Beam_Spec Verif.Beam_Proofs Verif.Beam_Media Verif.Beam_Slices Verif.Beam_More Verif.Beam_Vector Verif.Beam_Power Verif.Nearby_Spec Verif.Nearby_Proofs Verif.Neglect_Spec Verif.Neglect_Proofs Verif.Detour_Spec Verif.Detour_Proofs Verif.Divide_Spec Verif.Divide_Proofs Verif.Bounds_Proofs Verif.Return_Spec Verif.Return_Proofs Verif.Cplx.
Import ListNotations.
Local Open Scope R_scope.
Local Open Scope C_scope.

Lemma opposite_filters s a a' h u : (forall q, inside s q -> a' (neg s q) = a q) -> sum_over s (fun p => h p * ift s (fun q => ft s u q * a q) p) = sum_over s (fun p => u p * ift s (fun q => ft s h q * a' q) p).
Proof.
  intros A. rewrite !pair_ift. f_equal. symmetry. rewrite <- sum_over_neg. apply sum_over_ext. intros q Hq. rewrite (neg_neg s q Hq), A by exact Hq. ring.
Qed.

Section Return3.
  Variables (b : setup) (k d : R).
  Hypotheses (G : section_grid (bgrid b) (baxis b)) (K : (0 < k)%R) (BK : bk b = RtoC k) (Three : bcomp b = 3%nat) (Bn : bn b <> 0) (Odd : odd_sizes (bshape b)).
  Notation g := (bgrid b).
  Notation axis := (baxis b).
  Notation fi := (bfirst b).
  Notation sh := (bshape b).
  Notation sz := (size (bcomp b) sh).
  Notation w := (wave_vector g axis k).
  Notation filter := (filter b k d).

  Definition sg (c : nat) : C := if (c =? axis)%nat then - (1) else 1.
  Lemma sg_sq c : sg c * sg c = 1.
  Proof. unfold sg. destruct (c =? axis)%nat; ring. Qed.
  Definition W (q : list nat) : R := rsum 3 (fun i => w i q * w i q)%R.
  Definition mix (c i : nat) (q : list nat) : C := ((if (c =? i)%nat then 1 else 0) - RtoC (w c q) * RtoC (w i q) / RtoC (W q)) * cis (d * axial g axis k q).
  Lemma w_neg c q : (c < 3)%nat -> inside sh q -> RtoC (w c (neg sh q)) = - sg c * RtoC (w c q).
  Proof.
    intros Hc Hq. unfold wave_vector, sg. destruct (c =? axis)%nat; [rewrite (axial_neg b k G) by exact Hq; ring|].
    destruct G as (L & _). change (neg sh q) with (neg (rshape g) q). rewrite (kvec_neg g q c Hq); [rewrite RtoC_opp; ring|unfold rndim; rewrite L; exact Hc|]. apply (proj1 (Forall_forall _ _) Odd). apply nth_In. unfold bshape. rewrite L. exact Hc.
  Qed.
  Lemma W_neg q : inside sh q -> W (neg sh q) = W q.
  Proof.
    intros Hq. unfold W. apply rsum_ext. intros c Hc. apply RtoC_inj. rewrite !RtoC_mult, !w_neg by assumption. transitivity (sg c * sg c * (RtoC (w c q) * RtoC (w c q))); [ring|]. rewrite sg_sq. ring.
  Qed.
  Lemma mix_neg c i q : (c < 3)%nat -> (i < 3)%nat -> inside sh q -> sg i * mix i c (neg sh q) = sg c * mix c i q.
  Proof.
    intros Hc Hi Hq. unfold mix. rewrite W_neg, (axial_neg b k G), !w_neg by assumption. rewrite (Nat.eqb_sym i c). destruct (Nat.eqb_spec c i) as [->|N].
    - transitivity (sg i * ((1 - (sg i * sg i) * (RtoC (w i q) * RtoC (w i q)) / RtoC (W q)) * cis (d * axial g axis k q))); [unfold Cdiv; ring|]. rewrite sg_sq. unfold Cdiv. ring.
    - transitivity (sg c * (sg i * sg i) * ((0 - RtoC (w c q) * RtoC (w i q) / RtoC (W q)) * cis (d * axial g axis k q))); [unfold Cdiv; ring|]. rewrite sg_sq. unfold Cdiv. ring.
  Qed.
  Definition spreads (u : vfield) : vfield := fun c => to_space g fi (diffract g axis k d (transverse_part g axis k (fun i => to_spectrum g fi (u i)) c)).
  Lemma mixed (F : vfield) c q : (c < 3)%nat -> transverse_part g axis k F c q * cis (d * axial g axis k q) = csum 3 (fun i => F i q * mix c i q).
  Proof.
    intros Hc. unfold transverse_part, mix. fold (W q). cbn [csum]. destruct c as [|[|[|]]]; [| | |lia]; cbn [Nat.eqb]; unfold Cdiv; ring.
  Qed.
  Lemma spreads_ift u c p : (c < 3)%nat -> inside sh p -> spreads u c p = csum 3 (fun i => ift sh (fun q => ft sh (u i) q * mix c i q) p).
  Proof.
    intros Hc Hp. unfold spreads. rewrite <- (to_space_ift b) by assumption. cbn [csum]. rewrite Cplus_0_l, <- !ift_plus. apply ift_ext. intros q Hq. unfold diffract. rewrite mixed by exact Hc. cbn [csum]. rewrite <- !(to_spectrum_ft b) by assumption.
    transitivity ((ft sh (u 0%nat) q * mix c 0 q + ft sh (u 1%nat) q * mix c 1 q + ft sh (u 2%nat) q * mix c 2 q) * (Cconj (shift_ft b q) * shift_ft b q)); [ring|]. unfold shift_ft. rewrite cis_unit. ring.
  Qed.
  Definition pairs (h u : vfield) : C := csum 3 (fun c => sg c * sum_over sh (fun p => h c p * u c p)).
  Lemma spreads_sym h u : pairs h (spreads u) = pairs u (spreads h).
  Proof.
    assert (forall h u, pairs h (spreads u) = csum 3 (fun c => csum 3 (fun i => sg c * sum_over sh (fun p => h c p * ift sh (fun q => ft sh (u i) q * mix c i q) p)))) as E.
    { intros h0 u0. unfold pairs. apply csum_ext. intros c Hc. rewrite (sum_over_ext sh _ (fun p => h0 c p * csum 3 (fun i => ift sh (fun q => ft sh (u0 i) q * mix c i q) p))) by (intros p Hp; rewrite spreads_ift by assumption; reflexivity).
      cbn [csum]. rewrite (sum_over_ext sh _ (fun p => h0 c p * ift sh (fun q => ft sh (u0 0%nat) q * mix c 0 q) p + h0 c p * ift sh (fun q => ft sh (u0 1%nat) q * mix c 1 q) p + h0 c p * ift sh (fun q => ft sh (u0 2%nat) q * mix c 2 q) p)) by (intros; ring). rewrite !sum_over_plus. ring. }
    rewrite !E, csum_swap. apply csum_ext. intros i Hi. apply csum_ext. intros c Hc.
    rewrite <- !sum_over_scal. transitivity (sum_over sh (fun p => h c p * ift sh (fun q => ft sh (u i) q * (sg c * mix c i q)) p)).
    - apply sum_over_ext. intros p _. transitivity (h c p * (sg c * ift sh (fun q => ft sh (u i) q * mix c i q) p)); [ring|]. f_equal. rewrite <- ift_scal. f_equal. apply functional_extensionality. intros q. ring.
    - rewrite (opposite_filters sh _ (fun q => sg i * mix i c q)) by (intros q Hq; apply mix_neg; assumption). apply sum_over_ext. intros p _. transitivity (u i p * (sg i * ift sh (fun q => ft sh (h c) q * mix i c q) p)); [|ring]. f_equal. rewrite <- ift_scal. f_equal. apply functional_extensionality. intros q. ring.
  Qed.
  Definition vpass (u : vfield) (m : option sfield) : vfield := spreads (fun c p => u c p * filter m p).
  Definition vpasses (l : list (option sfield)) (u : vfield) : vfield := fold_left vpass l u.
  Lemma vpasses_rev l : forall f h, pairs h (vpasses l (spreads f)) = pairs f (vpasses (rev l) (spreads h)).
  Proof.
    induction l as [|m l IH]; intros f h; [apply spreads_sym|]. cbn [rev]. unfold vpasses in *. cbn [fold_left]. rewrite fold_left_app. cbn [fold_left]. unfold vpass at 2. rewrite IH.
    unfold vpass at 2. rewrite spreads_sym. unfold pairs. apply csum_ext. intros c _. f_equal. apply sum_over_ext. intros p _. ring.
  Qed.
  Notation alike F u := (forall c, (c < 3)%nat -> agree sh (to_space g fi (F c)) (u c)).
  Lemma part_ext (F H : vfield) c q : (c < 3)%nat -> (forall i, (i < 3)%nat -> F i q = H i q) -> transverse_part g axis k F c q = transverse_part g axis k H c q.
  Proof. intros Hc E. unfold transverse_part. rewrite (E c Hc), (csum_ext 3 _ (fun i => RtoC (w i q) * H i q)) by (intros i Hi; rewrite E by exact Hi; reflexivity). reflexivity. Qed.
  Lemma exact_vpass m F u : transverse g axis k F -> alike F u -> alike (exact_slice b k (d, m) F) (vpass u m).
  Proof.
    intros T E c Hc p Hp. unfold exact_slice. rewrite Three. cbn [Nat.eqb fst snd]. unfold vpass, spreads. apply (to_space_ext b). intros q Hq. unfold vector_through. destruct m as [n|]; cbn [Return_Proofs.filter]; unfold diffract; f_equal.
    - apply part_ext; [exact Hc|]. intros i Hi. unfold transmit. apply (to_spectrum_ext b). intros r Hr. rewrite (E i Hi r Hr). reflexivity.
    - rewrite (part_ext _ F) by (exact Hc || (intros i Hi; rewrite (to_spectrum_ext b _ (to_space g fi (F i))) by (intros r Hr; rewrite (E i Hi r Hr); ring); exact (spectrum_space b G (F i) q Hq))).
      unfold transverse_part. rewrite (T q). unfold Cdiv. ring.
  Qed.
  Lemma exact_vpasses l : forall F u, transverse g axis k F -> alike F u -> alike (exact_slices b k (map (fun m => (d, m)) l) F) (vpasses l u).
  Proof.
    induction l as [|m l IH]; intros F u T E; [exact E|]. apply (IH (exact_slice b k (d, m) F) (vpass u m)); [|exact (exact_vpass m F u T E)]. apply (exact_transverse b k G K BK); [intros _; exact T|exact Three].
  Qed.
  Definition videal (l : list (option sfield)) (f : vfield) : vfield := fun c => to_space g fi (exact_slices b k (outward d l) (exact_start b k (fun c => to_spectrum g fi (f c))) c).
  Lemma videal_passes l f c : (c < 3)%nat -> agree sh (videal l f c) (vpasses l (spreads f) c).
  Proof.
    intros Hc. unfold videal, outward. cbn [map]. set (F := exact_start b k (fun c => to_spectrum g fi (f c))). change (exact_slices b k ((d, None) :: map (fun m => (d, m)) l) F) with (exact_slices b k (map (fun m => (d, m)) l) (exact_slice b k (d, None) F)).
    assert (transverse g axis k F) as T by (apply (start_transverse b k G K BK); exact Three).
    apply exact_vpasses; [apply (exact_transverse b k G K BK); [intros _; exact T|exact Three]| |exact Hc]. intros i Hi p Hp. unfold exact_slice. rewrite Three. cbn [Nat.eqb fst snd]. unfold vector_through, spreads, F, exact_start. rewrite Three. reflexivity.
  Qed.
  Lemma facing_pairs h u : product 3 sh (facing axis h) u = pairs h u.
  Proof.
    unfold product, pairs. apply csum_ext. intros c _. rewrite <- sum_over_scal. apply sum_over_ext. intros p _. unfold facing, sg. destruct (c =? axis)%nat; ring.
  Qed.
  Lemma videal_reciprocal l f h : product 3 sh (facing axis h) (videal l f) = product 3 sh (facing axis f) (videal (rev l) h).
  Proof.
    rewrite !facing_pairs. transitivity (pairs h (vpasses l (spreads f))); [|rewrite vpasses_rev]; unfold pairs; apply csum_ext; intros c Hc; f_equal; apply sum_over_ext; intros p Hp; rewrite videal_passes by assumption; reflexivity.
  Qed.
  Lemma vproduct_near h X Y : (Cmod (product 3 sh (facing axis h) X - product 3 sh (facing axis h) Y)%C <= sz h * gap b X Y)%R.
  Proof.
    assert (sz h = size 3 sh (conjugated (facing axis h))) as ->.
    { rewrite Three. apply size_same. intros c p _ _. unfold conjugated, facing. rewrite Cmod_conj. destruct (c =? axis)%nat; [rewrite Cmod_opp|]; reflexivity. }
    replace (product 3 sh (facing axis h) X - product 3 sh (facing axis h) Y) with (vip 3 sh (conjugated (facing axis h)) (fun c p => X c p - Y c p)).
    - unfold gap. rewrite Three. unfold size. rewrite <- sqrt_mult by apply vnorm2_nonneg. rewrite <- (sqrt_square (Cmod _)) by apply Cmod_ge_0. apply sqrt_le_1_alt. rewrite vip_flat, !vnorm2_flat. apply cauchy_schwarz.
    - rewrite <- product_vip. pose proof (product_minus 3 sh 1 1 (facing axis h) X Y) as M. rewrite !Cmult_1_l in M. rewrite <- M. f_equal. apply functional_extensionality. intros c. apply functional_extensionality. intros p. ring.
  Qed.
  Lemma vfield_reciprocal l f h s s' : (0 < d)%R -> Forall (fun m => passive_slice b (d, m)) l ->
    (Cmod (product 3 sh (facing axis h) (read_field b (run b s (SetField f :: there (outward d l)))) - product 3 sh (facing axis f) (read_field b (run b s' (SetField h :: there (inward d l)))))%C <=
     (all_neglected b k (outward d l) + all_neglected b k (inward d l) + 2 * (k * / 100000000)) * (sz f * sz h) + (INR (slices (there (outward d l)) + 1) * sz h + INR (slices (there (inward d l)) + 1) * sz f) * (sqrt 3 / 100000000))%R.
  Proof.
    intros D A. assert (bcomp b = 1%nat \/ bcomp b = 3%nat) as Comp by (right; exact Three). assert (Forall (fun m => passive_slice b (d, m)) (rev l)) as A' by (apply Forall_rev, A).
    pose proof (neglect_space b k G K BK Comp Bn f (outward d l) s (outward_passive b d l D A)) as N. pose proof (neglect_space b k G K BK Comp Bn h (inward d l) s' (outward_passive b d (rev l) D A')) as N'.
    replace (sqrt (INR (bcomp b)) / 100000000)%R with (sqrt 3 / 100000000)%R in N, N' by (rewrite Three; do 2 f_equal; cbn; ring).
    fold (videal l f) in N. unfold inward in N'. fold (videal (rev l) h) in N'. fold (inward d l) in N'. set (step := (sqrt 3 / 100000000)%R) in *. clearbody step.
    set (X := read_field b (run b s (SetField f :: there (outward d l)))) in *. set (Y := read_field b (run b s' (SetField h :: there (inward d l)))) in *.
    pose proof (vproduct_near h X (videal l f)) as P. pose proof (vproduct_near f Y (videal (rev l) h)) as P'. rewrite <- videal_reciprocal in P'. set (z := product 3 sh (facing axis h) (videal l f)) in *.
    replace (product 3 sh (facing axis h) X - product 3 sh (facing axis f) Y) with ((product 3 sh (facing axis h) X - z) + (- (product 3 sh (facing axis f) Y - z))) by ring. eapply Rle_trans; [apply Cmod_triangle|]. rewrite Cmod_opp.
    assert (0 <= sz f)%R as Sf by apply size_nonneg. assert (0 <= sz h)%R as Sh by apply size_nonneg.
    assert (sz h * gap b X (videal l f) <= sz h * ((all_neglected b k (outward d l) + k * / 100000000) * sz f + INR (slices (there (outward d l)) + 1) * step))%R by (apply Rmult_le_compat_l; assumption).
    assert (sz f * gap b Y (videal (rev l) h) <= sz f * ((all_neglected b k (inward d l) + k * / 100000000) * sz h + INR (slices (there (inward d l)) + 1) * step))%R by (apply Rmult_le_compat_l; assumption). lra.
  Qed.
End Return3.
