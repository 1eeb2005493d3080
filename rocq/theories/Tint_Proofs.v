(** Proofs about a uniform change of the refractive index: C199. *)
From Coq Require Import Reals List Arith Bool ZArith Lia Lra Psatz FunctionalExtensionality.
Require Import Verif.Base Verif.CSum Verif.Field Verif.Fourier_Model Verif.Fourier_Spec Verif.Fourier_Proofs Verif.Vec_Model Verif.Vec_Spec Verif.Vec_Proofs Verif.Modes_Model Verif.Modes_Proofs.
Require Import Verif.Solver_Convergence Verif.Magnetic_Norm Verif.Robust_Spec Verif.Robust_Proofs.
Require Import Verif.Beam_Model Verif.Beam_Spec Verif.Beam_Proofs Verif.Beam_Media Verif.Beam_Slices Verif.Beam_More Verif.Beam_Vector Verif.Beam_Power Verif.Superpose_Spec Verif.Superpose_Proofs Verif.Nearby_Spec Verif.Nearby_Proofs Verif.Neglect_Spec Verif.Neglect_Proofs Verif.Detour_Spec Verif.Detour_Proofs Verif.Divide_Spec Verif.Divide_Proofs Verif.Bounds_Proofs Verif.Tint_Spec Verif.Cplx.
Import ListNotations.
Local Open Scope R_scope.
Local Open Scope C_scope.

Section Tint.
  Variables (b : setup) (k : R).
  Hypotheses (G : section_grid (bgrid b) (baxis b)) (K : (0 < k)%R) (BK : bk b = RtoC k) (Comp : bcomp b = 1%nat \/ bcomp b = 3%nat) (Bn : bn b <> 0).
  Notation g := (bgrid b).
  Notation axis := (baxis b).
  Notation fi := (bfirst b).
  Notation sh := (bshape b).
  Notation sz := (size (bcomp b) sh).
  Notation lay := (lay b).
  Notation root := (root b).
  Notation tr F := (bcomp b = 3%nat -> transverse g axis k F).

  Lemma lay_scal z w t F : lay (fun p => z * t p) (fun c q => w * F c q) = (fun c q => w * z * lay t F c q).
  Proof.
    pose proof (proj1 (set_field_joint b (w * z) 0 (fun c p => ift sh (fun q => F c q * shift_ft b q) p * t p) (fun c p => ift sh (fun q => F c q * shift_ft b q) p * t p))) as J.
    transitivity (superposed (w * z) 0 (lay t F) (lay t F)).
    - unfold Nearby_Proofs.lay. rewrite <- J. f_equal. f_equal. apply functional_extensionality. intros c. apply functional_extensionality. intros p. unfold superposed.
      replace (ift sh (fun q => w * F c q * shift_ft b q) p) with (w * ift sh (fun q => F c q * shift_ft b q) p); [ring|].
      rewrite <- ift_scal. f_equal. apply functional_extensionality. intros q. ring.
    - apply functional_extensionality. intros c. apply functional_extensionality. intros q. unfold superposed. ring.
  Qed.
  Definition one_tint (y : (R * option sfield) * C) : C := cexp (Ci * RtoC k * (RtoC (fst (fst y)) * snd y / bn b)).
  Definition tinted1 (y : (R * option sfield) * C) : R * option sfield := (fst (fst y), Some (fun p => index_in b (snd (fst y)) p + snd y)).
  Lemma one_tinted y w H c q : tr H -> (c < bcomp b)%nat -> inside sh q -> exact_slice b k (tinted1 y) (fun c q => w * H c q) c q = w * one_tint y * exact_slice b k (fst y) H c q.
  Proof.
    intros T Hc Hq. unfold tinted1. rewrite (exact_lay b k) by assumption. rewrite (exact_delay b k G K BK Comp Bn (fst y) H) by assumption.
    replace (fun p => cexp (Ci * bk b * excess b (index_in b (snd (fst y)) p + snd y) * RtoC (fst (fst y)))) with (fun p => one_tint y * delay b (fst y) p).
    - rewrite lay_scal. ring.
    - apply functional_extensionality. intros p. unfold one_tint, delay. rewrite <- cexp_plus. f_equal. rewrite BK. unfold excess. field. exact Bn.
  Qed.
  Lemma gap_scal w F H : gap b (fun c q => w * F c q) (fun c q => w * H c q) = (Cmod w * gap b F H)%R.
  Proof.
    unfold gap, size. rewrite <- (sqrt_square (Cmod w)) by apply Cmod_ge_0. rewrite <- sqrt_mult_alt by (pose proof (Cmod_ge_0 w); nra). f_equal. rewrite <- vnorm2_scal. f_equal. apply functional_extensionality. intros c. apply functional_extensionality. intros q. ring.
  Qed.
  Lemma gap_same F H : (forall c q, (c < bcomp b)%nat -> inside sh q -> F c q = H c q) -> gap b F H = 0%R.
  Proof. intros E. unfold gap. rewrite (size_same _ _ _ (fun _ _ => RtoC 0)); [apply zero_size|]. intros c q Hc Hq. rewrite E by assumption. f_equal. ring. Qed.
  Lemma scal_transverse w F : tr F -> tr (fun c q => w * F c q).
  Proof.
    intros T C3 q. pose proof (transverse_scale b k _ (fun _ => w) (T C3) q) as S. rewrite <- S. apply csum_ext. intros c _. ring.
  Qed.
  Definition dimmed (y : (R * option sfield) * C) : Prop := passive_slice b (fst y) /\ (0 <= snd (snd y / bn b)%C)%R.
  Lemma dimmed_passive y : dimmed y -> passive_slice b (tinted1 y).
  Proof.
    intros [A D]. split; [exact (proj1 A)|]. unfold tinted1. cbn [snd]. intros p Hp. pose proof (index_passive b Bn (fst y) p A Hp) as I. replace ((index_in b (snd (fst y)) p + snd y) / bn b) with (index_in b (snd (fst y)) p / bn b + snd y / bn b) by (field; exact Bn). cbn [Cplus snd]. lra.
  Qed.
  Lemma slices_tinted l : Forall dimmed l -> forall w F H, tr H -> (gap b (exact_slices b k (tinted b l) F) (fun c q => w * tint k (bn b) l * exact_slices b k (plain l) H c q)%C <= gap b F (fun c q => w * H c q)%C)%R.
  Proof.
    intros A. induction A as [|y l Ay A IH]; intros w F H T.
    - right. unfold exact_slices. cbn [tinted plain map fold_left]. f_equal. apply functional_extensionality. intros c. apply functional_extensionality. intros q. f_equal. unfold tint, damping, added_path. cbn [fold_right].
      replace (RtoC 0 / bn b) with (RtoC 0) by (field; exact Bn). cbn [fst snd RtoC]. rewrite Rmult_0_r, Ropp_0, exp_0. unfold cis. rewrite cos_0, sin_0. change ((1, 0)%R : C) with (RtoC 1). ring.
    - change (exact_slices b k (tinted b (y :: l)) F) with (exact_slices b k (tinted b l) (exact_slice b k (tinted1 y) F)). change (exact_slices b k (plain (y :: l)) H) with (exact_slices b k (plain l) (exact_slice b k (fst y) H)).
      assert (w * tint k (bn b) (y :: l) = w * one_tint y * tint k (bn b) l) as ->.
      { rewrite <- Cmult_assoc. f_equal. assert (forall m, tint k (bn b) m = cexp (Ci * RtoC k * (added_path m / bn b))) as E.
        { intros m. unfold tint, damping, cexp. set (z := added_path m / bn b). destruct z as [z1 z2]. cbn. f_equal; [do 2 f_equal; ring|f_equal; ring]. }
        rewrite !E. unfold one_tint. rewrite <- cexp_plus. f_equal. cbn [added_path fold_right]. fold (added_path l). field. exact Bn. }
      eapply Rle_trans; [apply (IH (w * one_tint y)); apply (exact_transverse b k G K BK), T|].
      eapply Rle_trans; [apply gap_triangle with (H := exact_slice b k (tinted1 y) (fun c q => w * H c q))|]. rewrite (gap_same (exact_slice b k (tinted1 y) (fun c q => w * H c q))) by (intros; apply one_tinted; assumption). rewrite Rplus_0_r. apply (exact_near b k G K BK Comp). apply dimmed_passive, Ay.
  Qed.
  Lemma tint_mod l : Cmod (tint k (bn b) l) = damping k (bn b) l.
  Proof. unfold tint. rewrite Cmod_mult, cis_mod, Rmult_1_r, Cmod_R. apply Rabs_pos_eq. left. apply exp_pos. Qed.
  Lemma tint_le l : Forall dimmed l -> (damping k (bn b) l <= 1)%R.
  Proof.
    intros A. unfold damping. assert (0 <= snd (added_path l / bn b)%C)%R as P.
    { induction A as [|y l [Ay D] A IH]; cbn [added_path fold_right].
      - replace (RtoC 0 / bn b) with (RtoC 0) by (field; exact Bn). cbn. lra.
      - fold (added_path l). replace ((RtoC (fst (fst y)) * snd y + added_path l) / bn b) with (RtoC (fst (fst y)) * (snd y / bn b) + added_path l / bn b) by (field; exact Bn). cbn [Cplus snd]. destruct Ay as [Dy _]. set (z := snd y / bn b) in *. destruct z as [z1 z2]. cbn in *. nra. }
    rewrite <- exp_0. assert (- (k * snd (added_path l / bn b)%C) <= 0)%R as [L| ->]; [nra|left; apply exp_increasing, L|right; reflexivity].
  Qed.
  Lemma tinted_passive l : Forall dimmed l -> Forall (passive_slice b) (tinted b l).
  Proof. intros A. induction A as [|y l Ay A IH]; constructor; [apply dimmed_passive, Ay|exact IH]. Qed.
  Lemma plain_passive l : Forall dimmed l -> Forall (passive_slice b) (plain l).
  Proof. intros A. induction A as [|y l [Ay _] A IH]; constructor; assumption. Qed.
  Lemma exact_tinted l F : Forall dimmed l -> gap b (exact_slices b k (tinted b l) (exact_start b k F)) (fun c q => tint k (bn b) l * exact_slices b k (plain l) (exact_start b k F) c q) = 0%R.
  Proof.
    intros A. apply Rle_antisym; [|apply size_nonneg]. pose proof (slices_tinted l A 1 (exact_start b k F) (exact_start b k F) (start_transverse b k G K BK F)) as S. rewrite (gap_same (exact_start b k F)) in S by (intros; ring).
    replace (fun c q => tint k (bn b) l * exact_slices b k (plain l) (exact_start b k F) c q) with (fun c q => 1 * tint k (bn b) l * exact_slices b k (plain l) (exact_start b k F) c q); [exact S|]. apply functional_extensionality. intros c. apply functional_extensionality. intros q. ring.
  Qed.
  Lemma beam_tinted F l s s' : Forall dimmed l ->
    (gap b (read_ft b (run b s (SetFt F :: there (tinted b l)))) (fun c q => tint k (bn b) l * read_ft b (run b s' (SetFt F :: there (plain l))) c q)%C <= slack b k (tinted b l) F + slack b k (plain l) F)%R.
  Proof.
    intros A. pose proof (beam_error b k G K BK Comp Bn F _ s (tinted_passive l A)) as E. pose proof (beam_error b k G K BK Comp Bn F _ s' (plain_passive l A)) as E'.
    pose proof (exact_tinted l F A) as Z. set (W := tint k (bn b) l) in *. set (X := read_ft b (run b s (SetFt F :: there (tinted b l)))) in *. set (Y := read_ft b (run b s' (SetFt F :: there (plain l)))) in *. set (B := exact_slices b k (tinted b l) (exact_start b k F)) in *. set (D := exact_slices b k (plain l) (exact_start b k F)) in *.
    pose proof (gap_triangle b X B (fun c q => W * Y c q)) as T1. pose proof (gap_triangle b B (fun c q => W * D c q) (fun c q => W * Y c q)) as T2. rewrite gap_scal, (gap_sym b D) in T2.
    assert (0 <= Cmod W <= 1)%R as M by (split; [apply Cmod_ge_0|unfold W; rewrite tint_mod; apply tint_le, A]). assert (0 <= gap b Y D)%R as P by apply size_nonneg. unfold slack. unfold Nearby_Proofs.floor in E, E'. nra.
  Qed.
  Lemma to_space_by w F p : to_space g fi (fun q => w * F q) p = w * to_space g fi F p.
  Proof.
    unfold to_space. rewrite (sum_over_ext (rshape g) _ (fun q => w * (F q * cis (rsum 3 (fun c => kvec g c q * coordinate g fi p c)%R)))) by (intros; ring). rewrite sum_over_scal. unfold Cdiv. ring.
  Qed.
  Lemma field_tinted f l s s' : Forall dimmed l ->
    (gap b (read_field b (run b s (SetField f :: there (tinted b l)))) (fun c p => tint k (bn b) l * read_field b (run b s' (SetField f :: there (plain l))) c p)%C <=
     (all_neglected b k (tinted b l) + all_neglected b k (plain l) + 2 * (k * / 100000000)) * sz f + INR (slices (there (tinted b l)) + slices (there (plain l)) + 2) * (sqrt (INR (bcomp b)) / 100000000))%R.
  Proof.
    intros A. rewrite !run_start. set (F := start b f). pose proof (beam_error b k G K BK Comp Bn F _ s (tinted_passive l A)) as E. pose proof (beam_error b k G K BK Comp Bn F _ s' (plain_passive l A)) as E'.
    pose proof (exact_tinted l F A) as Z. set (W := tint k (bn b) l) in *. set (X := run b s (SetFt F :: there (tinted b l))) in *. set (Y := run b s' (SetFt F :: there (plain l))) in *. set (B := exact_slices b k (tinted b l) (exact_start b k F)) in *. set (D := exact_slices b k (plain l) (exact_start b k F)) in *.
    pose proof (space_gap b G X (fun c q => W * D c q)) as SX. pose proof (space_gap b G Y D) as SY. set (d := fun c => to_space g fi (D c)) in *.
    pose proof (gap_triangle b (read_ft b X) B (fun c q => W * D c q)) as T1.
    pose proof (gap_triangle b (read_field b X) (fun c p => W * d c p) (fun c p => W * read_field b Y c p)) as T2. rewrite gap_scal, (gap_sym b d) in T2.
    assert ((fun c => to_space g fi (fun q => W * D c q)) = (fun c p => W * d c p)) as E3 by (apply functional_extensionality; intros c; apply functional_extensionality; intros p; unfold d; rewrite to_space_by; reflexivity). cbv beta in SX. rewrite E3 in SX.
    assert (0 <= Cmod W <= 1)%R as M by (split; [apply Cmod_ge_0|unfold W; rewrite tint_mod; apply tint_le, A]). assert (0 <= gap b (read_field b Y) d)%R as P by apply size_nonneg. pose proof (root_pos b G) as RP.
    unfold F in E, E'. rewrite (start_root b G) in E, E'. rewrite (floor_root b) in *. apply Rmult_le_reg_l with (1 := RP). rewrite !plus_INR. change (INR 2) with (1 + 1)%R. set (x := (sqrt (INR (bcomp b)) / 100000000)%R) in *.
    clearbody x. clear E3. set (g1 := gap b (read_field b Y) d) in *. set (g2 := gap b (read_field b X) (fun c p => W * d c p)) in *. set (g3 := gap b (read_field b X) (fun c p => W * read_field b Y c p)) in *. set (w := Cmod W) in *. clearbody g1 g2 g3 w.
    assert (w * g1 <= g1)%R as Q by nra. assert (root * g3 <= root * (g2 + g1))%R as Q2 by (apply Rmult_le_compat_l; lra). lra.
  Qed.
  (** Sizes. *)
  Lemma size_gap F H w : (Rabs (sz F - Cmod w * sz H) <= gap b F (fun c p => w * H c p)%C)%R.
  Proof.
    assert (forall L, gap b L (fun _ _ => 0) = sz L) as E0 by (intros L; apply size_same; intros; f_equal; ring).
    assert (gap b (fun c p => w * H c p)%C (fun _ _ => RtoC 0) = Cmod w * sz H)%R as E1 by (rewrite <- (E0 H), <- gap_scal; apply size_same; intros; f_equal; ring).
    pose proof (gap_triangle b F (fun c p => w * H c p) (fun _ _ => 0)) as T1. pose proof (gap_triangle b (fun c p => w * H c p) F (fun _ _ => 0)) as T2. rewrite (gap_sym b (fun c p => w * H c p) F) in T2. rewrite (E0 F), E1 in T1, T2. apply Rabs_le. lra.
  Qed.
End Tint.
