(** Proofs about slices without gain or loss: C201. *)
From Coq Require Import Reals List Arith Bool ZArith Lia Lra Psatz FunctionalExtensionality.
Require Import Verif.Base Verif.CSum Verif.Field Verif.Fourier_Model Verif.Fourier_Spec Verif.Fourier_Proofs Verif.Vec_Model Verif.Vec_Spec Verif.Vec_Proofs Verif.Modes_Model Verif.Modes_Proofs.
Require Import Verif.Solver_Convergence Verif.Magnetic_Norm Verif.Robust_Spec Verif.Robust_Proofs.
Require Import Verif.Beam_Model Verif.Beam_Spec Verif.Beam_Proofs Verif.Beam_Media Verif.Beam_Slices Verif.Beam_More Verif.Beam_Vector Verif.Beam_Power Verif.Nearby_Spec Verif.Nearby_Proofs Verif.Neglect_Spec Verif.Neglect_Proofs Verif.Detour_Spec Verif.Detour_Proofs Verif.Divide_Spec Verif.Divide_Proofs Verif.Bounds_Proofs Verif.Ortho_Spec Verif.Cplx.
Import ListNotations.
Local Open Scope R_scope.
Local Open Scope C_scope.

Lemma ip_agree s f f' h h' : agree s f f' -> agree s h h' -> ip s f h = ip s f' h'.
Proof. intros E E'. unfold ip. apply sum_over_ext. intros p Hp. rewrite E, E' by exact Hp. reflexivity. Qed.
Lemma ip_unit s (t : sfield) f h : (forall p, inside s p -> Cconj (t p) * t p = 1) -> ip s (fun p => f p * t p) (fun p => h p * t p) = ip s f h.
Proof. intros T. unfold ip. apply sum_over_ext. intros p Hp. rewrite Cconj_mult. transitivity (Cconj (f p) * h p * (Cconj (t p) * t p)); [ring|]. rewrite T by exact Hp. ring. Qed.

Section Ortho.
  Variables (b : setup) (k : R).
  Hypotheses (G : section_grid (bgrid b) (baxis b)) (K : (0 < k)%R) (BK : bk b = RtoC k) (One : bcomp b = 1%nat) (Bn : bn b <> 0).
  Notation g := (bgrid b).
  Notation axis := (baxis b).
  Notation fi := (bfirst b).
  Notation sh := (bshape b).
  Notation sz := (size (bcomp b) sh).
  Notation N := (RtoC (INR (points sh))).

  Lemma full : nonempty sh.
  Proof. destruct G as (_ & _ & NE & _). exact NE. Qed.
  Lemma spectrum_ip u v : ip sh (to_spectrum g fi u) (to_spectrum g fi v) = N * ip sh u v.
  Proof.
    rewrite <- ft_ip by exact full. rewrite <- (ip_unit sh (fun q => Cconj (shift_ft b q)) (ft sh u) (ft sh v)).
    - apply ip_agree; intros q Hq; symmetry; apply (to_spectrum_ft b); assumption.
    - intros q _. rewrite Cconj_conj, Cmult_comm. unfold shift_ft. apply cis_unit.
  Qed.
  Lemma space_ip F H : N * ip sh (to_space g fi F) (to_space g fi H) = ip sh F H.
  Proof. rewrite <- spectrum_ip. apply ip_agree; apply (spectrum_space b G). Qed.
  Lemma lossless_passive x : lossless_slice b x -> passive_slice b x.
  Proof. intros [D L]. split; [exact D|]. destruct (snd x) as [n|]; [|exact I]. intros p Hp. rewrite (L p Hp). lra. Qed.
  Lemma transmittance_unit d n p : snd (n p / bn b)%C = 0%R -> Cconj (transmittance k (bn b) d n p) * transmittance k (bn b) d n p = 1.
  Proof.
    intros L. unfold transmittance. cbv zeta. replace (fst (Ci * RtoC k * (n p / bn b - 1) * RtoC d)) with 0%R.
    - rewrite exp_0, Cconj_mult, Cconj_R. transitivity (Cconj (cis (snd (Ci * RtoC k * (n p / bn b - 1) * RtoC d))) * cis (snd (Ci * RtoC k * (n p / bn b - 1) * RtoC d))); [ring|apply cis_unit].
    - set (z := n p / bn b) in *. destruct z as [z1 z2]. cbn in *. subst z2. ring.
  Qed.
  Lemma diffract_ip d F H : ip sh (diffract g axis k d F) (diffract g axis k d H) = ip sh F H.
  Proof. unfold diffract. apply (ip_unit sh (fun q => cis (d * axial g axis k q))). intros q _. apply cis_unit. Qed.
  Lemma slice_ip x F H : lossless_slice b x -> ip sh (exact_slice b k x F 0%nat) (exact_slice b k x H 0%nat) = ip sh (F 0%nat) (H 0%nat).
  Proof.
    intros [_ L]. unfold exact_slice. rewrite One. cbn [Nat.eqb]. destruct (snd x) as [n|]; cbn [through]; [|apply diffract_ip]. unfold split_step. rewrite diffract_ip. unfold transmit. rewrite spectrum_ip, ip_unit by (intros p Hp; apply transmittance_unit, L, Hp). apply space_ip.
  Qed.
  Lemma slices_ip l : Forall (lossless_slice b) l -> forall F H, ip sh (exact_slices b k l F 0%nat) (exact_slices b k l H 0%nat) = ip sh (F 0%nat) (H 0%nat).
  Proof.
    intros A. induction A as [|x l Ax A IH]; intros F H; [reflexivity|]. change (ip sh (exact_slices b k l (exact_slice b k x F) 0%nat) (exact_slices b k l (exact_slice b k x H) 0%nat) = ip sh (F 0%nat) (H 0%nat)). rewrite IH. apply slice_ip, Ax.
  Qed.
  Definition ideally (l : list (R * option sfield)) (f : vfield) : vfield := fun c => to_space g fi (exact_slices b k l (exact_start b k (fun c => to_spectrum g fi (f c))) c).
  Lemma ideally_ip l f h : Forall (lossless_slice b) l -> ip sh (ideally l f 0%nat) (ideally l h 0%nat) = ip sh (f 0%nat) (h 0%nat).
  Proof.
    intros A. assert (N <> 0) as NZ. { intros Z. apply RtoC_inj in Z. pose proof (root_pos b G) as P. unfold root in P. rewrite Z, sqrt_0 in P. lra. }
    transitivity (/ N * (N * ip sh (ideally l f 0%nat) (ideally l h 0%nat))); [field; exact NZ|]. unfold ideally. rewrite space_ip, slices_ip by exact A. unfold exact_start. rewrite One. cbn [Nat.eqb]. rewrite spectrum_ip. field. exact NZ.
  Qed.
  Lemma ip_bound (F H : vfield) : (Cmod (ip sh (F 0%nat) (H 0%nat)) <= sz F * sz H)%R.
  Proof.
    rewrite One. unfold size. rewrite <- sqrt_mult by apply vnorm2_nonneg. rewrite <- (sqrt_square (Cmod _)) by apply Cmod_ge_0. apply sqrt_le_1_alt. unfold vnorm2. cbn [rsum]. rewrite !Rplus_0_l. apply cauchy_schwarz.
  Qed.
  Lemma ideally_size l f : Forall (lossless_slice b) l -> sz (ideally l f) = sz f.
  Proof.
    intros A. rewrite One. unfold size, vnorm2. cbn [rsum]. rewrite !Rplus_0_l. f_equal. apply RtoC_inj. rewrite <- !ip_self. apply ideally_ip, A.
  Qed.
  Lemma tolerated l f s : Forall (lossless_slice b) l -> (gap b (read_field b (run b s (SetField f :: there l))) (ideally l f) <= tolerance b k l f)%R.
  Proof.
    intros A. assert (bcomp b = 1%nat \/ bcomp b = 3%nat) as Comp by (left; exact One). assert (Forall (passive_slice b) l) as P by (eapply Forall_impl; [|exact A]; apply lossless_passive).
    pose proof (neglect_space b k G K BK Comp Bn f l s P) as E. replace (sqrt (INR (bcomp b)) / 100000000)%R with (/ 100000000)%R in E by (rewrite One; cbn [INR]; rewrite sqrt_1; field). exact E.
  Qed.
  Lemma read_size l f s : Forall (lossless_slice b) l -> (Rabs (sz (read_field b (run b s (SetField f :: there l))) - sz f) <= tolerance b k l f)%R.
  Proof.
    intros A. rewrite <- (ideally_size l f A). pose proof (tolerated l f s A) as E. set (X := read_field b (run b s (SetField f :: there l))) in *. set (Y := ideally l f) in *.
    assert (forall L, gap b L (fun _ _ => 0) = sz L) as E0 by (intros L; apply size_same; intros; f_equal; ring).
    pose proof (gap_triangle b X Y (fun _ _ => 0)) as T1. pose proof (gap_triangle b Y X (fun _ _ => 0)) as T2. rewrite (gap_sym b Y X) in T2. rewrite !E0 in T1, T2. apply Rabs_le. lra.
  Qed.
  Lemma read_ip l f h s s' : Forall (lossless_slice b) l ->
    (Cmod (ip sh (read_field b (run b s (SetField f :: there l)) 0%nat) (read_field b (run b s' (SetField h :: there l)) 0%nat) - ip sh (f 0%nat) (h 0%nat))%C <= tolerance b k l f * (sz h + tolerance b k l h) + sz f * tolerance b k l h)%R.
  Proof.
    intros A. rewrite <- (ideally_ip l f h A). pose proof (tolerated l f s A) as E. pose proof (tolerated l h s' A) as E'. pose proof (read_size l h s' A) as S0. pose proof (Rle_trans _ _ _ (Rle_abs _) S0) as S. clear S0. pose proof (ideally_size l f A) as Sf.
    set (X := read_field b (run b s (SetField f :: there l))) in *. set (Y := read_field b (run b s' (SetField h :: there l))) in *. set (P := ideally l f) in *. set (Q := ideally l h) in *.
    replace (ip sh (X 0%nat) (Y 0%nat) - ip sh (P 0%nat) (Q 0%nat)) with (ip sh (fun p => X 0%nat p - P 0%nat p) (Y 0%nat) + ip sh (P 0%nat) (fun p => Y 0%nat p - Q 0%nat p)).
    - eapply Rle_trans; [apply Cmod_triangle|]. pose proof (ip_bound (fun c p => X c p - P c p) Y) as B1. pose proof (ip_bound P (fun c p => Y c p - Q c p)) as B2. cbv beta in B1, B2. fold (gap b X P) in B1. fold (gap b Y Q) in B2. rewrite Sf in B2.
      assert (0 <= gap b X P)%R as G1 by apply size_nonneg. assert (0 <= gap b Y Q)%R as G2 by apply size_nonneg. assert (0 <= sz Y)%R as G3 by apply size_nonneg. assert (0 <= sz f)%R as G4 by apply size_nonneg.
      apply Rplus_le_compat; [eapply Rle_trans; [exact B1|]; apply Rmult_le_compat; lra|eapply Rle_trans; [exact B2|]; apply Rmult_le_compat_l; assumption].
    - unfold ip. rewrite <- sum_over_minus, <- sum_over_plus. apply sum_over_ext. intros p _. rewrite Cconj_minus. ring.
  Qed.
End Ortho.
