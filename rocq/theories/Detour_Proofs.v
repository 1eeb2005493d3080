(** Proofs about errors in the media of a beam: C195. *)
From Coq Require Import Reals List Arith Bool ZArith Lia Lra Psatz FunctionalExtensionality.
Require Import Verif.Base Verif.CSum Verif.Field Verif.Fourier_Model Verif.Fourier_Spec Verif.Fourier_Proofs Verif.Vec_Model Verif.Vec_Spec Verif.Vec_Proofs Verif.Modes_Model Verif.Modes_Proofs.
Require Import Verif.Solver_Convergence Verif.Magnetic_Norm Verif.Robust_Spec Verif.Robust_Proofs.
Require Import Verif.Beam_Model Verif.Beam_Spec Verif.Beam_Proofs Verif.Beam_Media Verif.Beam_Slices Verif.Beam_More Verif.Beam_Vector Verif.Beam_Power Verif.Nearby_Spec Verif.Nearby_Proofs Verif.Neglect_Spec Verif.Neglect_Proofs Verif.Detour_Spec Verif.Cplx.
Import ListNotations.
Local Open Scope R_scope.
Local Open Scope C_scope.

Section Detour.
  Variables (b : setup) (k : R).
  Hypotheses (G : section_grid (bgrid b) (baxis b)) (K : (0 < k)%R) (BK : bk b = RtoC k) (Comp : bcomp b = 1%nat \/ bcomp b = 3%nat) (Bn : bn b <> 0).
  Notation g := (bgrid b).
  Notation axis := (baxis b).
  Notation sh := (bshape b).
  Notation sz := (size (bcomp b) sh).
  Notation lay := (lay b).
  Notation tr F := (bcomp b = 3%nat -> transverse g axis k F).

  Definition delay (x : R * option sfield) (p : list nat) : C := cexp (Ci * bk b * excess b (index_in b (snd x) p) * RtoC (fst x)).
  Lemma index_passive x p : passive_slice b x -> inside sh p -> (0 <= snd (index_in b (snd x) p / bn b)%C)%R.
  Proof.
    intros [_ A] Hp. destruct (snd x) as [n|]; [exact (A p Hp)|]. cbn [index_in]. replace (bn b / bn b) with (RtoC 1) by (field; exact Bn). cbn. lra.
  Qed.
  Lemma delay_le x p : passive_slice b x -> inside sh p -> (Cmod (delay x p) <= 1)%R.
  Proof. intros A Hp. apply (excess_le b k); [assumption..|]. pose proof (index_passive x p A Hp). destruct A as [D _]. nra. Qed.
  Lemma exact_delay x F c q : tr F -> (c < bcomp b)%nat -> inside sh q -> exact_slice b k x F c q = lay (delay x) F c q * propagator b (fst x) q.
  Proof.
    intros T Hc Hq. destruct x as [d [n|]].
    - rewrite (exact_lay b k) by assumption. reflexivity.
    - rewrite (exact_none b k) by assumption. cbn [fst]. f_equal.
      replace (delay (d, None)) with (fun _ : list nat => RtoC 1).
      + rewrite (lay_flat b G Comp) by ((apply (kept_transverse b k); assumption) || assumption). ring.
      + apply functional_extensionality. intros p. unfold delay. cbn [fst snd index_in]. transitivity (cexp 0); [symmetry; apply cexp_0|]. f_equal. unfold excess. field. exact Bn.
  Qed.
  Lemma exact_transverse x F : tr F -> tr (exact_slice b k x F).
  Proof.
    intros T C3. unfold exact_slice. rewrite C3. cbn [Nat.eqb]. destruct x as [d [n|]]; cbn [fst snd].
    - intros q. exact (transverse_scale b k _ (fun q => cis (d * axial g axis k q)) (part_is_transverse b k G K BK C3 (fun i => transmit g (bfirst b) (transmittance k (bn b) d n) (F i))) q).
    - intros q. exact (transverse_scale b k _ (fun q => cis (d * axial g axis k q)) (T C3) q).
  Qed.
  Lemma exact_size x F : passive_slice b x -> tr F -> (sz (exact_slice b k x F) <= sz F)%R.
  Proof.
    intros A T. rewrite (size_same _ _ _ (lay (delay x) F)).
    - apply (lay_power b k); try assumption. intros p Hp. apply delay_le; assumption.
    - intros c q Hc Hq. rewrite exact_delay by assumption. rewrite Cmod_mult, (propagator_mod b k) by assumption. ring.
  Qed.
  Lemma delay_close x y p : passive_slice b x -> passive_slice b y -> inside sh p ->
    (Cmod (delay x p - delay y p)%C <= k * Cmod (RtoC (fst x) * (index_in b (snd x) p / bn b - 1) - RtoC (fst y) * (index_in b (snd y) p / bn b - 1))%C)%R.
  Proof.
    intros A B Hp. unfold delay. eapply Rle_trans; [apply cexp_close; rewrite (excess_exponent b k BK)|].
    - pose proof (index_passive x p A Hp). destruct A as [D _]. assert (0 < k * fst x)%R by nra. nra.
    - pose proof (index_passive y p B Hp). destruct B as [D _]. assert (0 < k * fst y)%R by nra. nra.
    - right. rewrite BK. set (u := RtoC (fst x) * _ - _).
      match goal with |- Cmod ?z = _ => replace z with (Ci * RtoC k * u) by (unfold u, excess; ring) end. rewrite !Cmod_mult, Cmod_R, Rabs_pos_eq by lra. replace (Cmod Ci) with 1%R; [ring|]. unfold Cmod, Ci. cbn. replace (_ + _)%R with 1%R by ring. symmetry. apply sqrt_1.
  Qed.
  Lemma turn_close d d' q : (Cmod (propagator b d q - propagator b d' q)%C <= k * Rabs (d - d'))%R.
  Proof.
    rewrite !(propagator_real b k) by assumption. set (a := axial g axis k q). replace (cis (d * a) - cis (d' * a)) with (cis (d' * a) * (cis ((d - d') * a) - 1)).
    - rewrite Cmod_mult, cis_mod, Rmult_1_l. eapply Rle_trans; [apply cis_close|]. rewrite Rabs_mult, Rmult_comm. apply Rmult_le_compat_r; [apply Rabs_pos|].
      unfold a. rewrite Rabs_pos_eq by apply axial_nonneg. apply (axial_le b k K).
    - replace (d * a)%R with (d' * a + (d - d') * a)%R by ring. rewrite cis_plus. ring.
  Qed.
  Lemma slice_detour x y e F : passive_slice b x -> passive_slice b y -> tr F -> (forall p, inside sh p -> (detour b k x y p <= e)%R) ->
    (gap b (exact_slice b k x F) (exact_slice b k y F) <= e * sz F)%R.
  Proof.
    intros A B T H. set (r := (k * Rabs (fst x - fst y))%R). assert (0 <= r)%R as R0 by (unfold r; pose proof (Rabs_pos (fst x - fst y)); nra).
    assert (r <= e)%R as Re.
    { specialize (H origin (shape_inside b G)). unfold detour in H. fold r in H. rewrite Rmult_plus_distr_l in H. fold r in H. match type of H with (_ + k * Cmod ?z <= _)%R => pose proof (Cmod_ge_0 z) end. nra. }
    pose proof (gap_triangle b (exact_slice b k x F) (fun c q => lay (delay y) F c q * propagator b (fst x) q) (exact_slice b k y F)) as Tr.
    assert (gap b (exact_slice b k x F) (fun c q => lay (delay y) F c q * propagator b (fst x) q)%C <= (e - r) * sz F)%R as L1.
    { rewrite (gap_turned b k G K BK (fst x) _ _ (lay (delay x) F) (lay (delay y) F)) by (intros; first [apply exact_delay; assumption|reflexivity]).
      unfold gap. rewrite lay_minus_t. apply (lay_bound b k G K BK Comp); [lra|]. intros p Hp. eapply Rle_trans; [apply delay_close; assumption|]. specialize (H p Hp). unfold detour in H. rewrite Rmult_plus_distr_l in H. fold r in H. lra. }
    assert (gap b (fun c q => lay (delay y) F c q * propagator b (fst x) q)%C (exact_slice b k y F) <= r * sz F)%R as L2.
    { apply Rle_trans with (r * sz (lay (delay y) F))%R.
      - unfold gap. rewrite (size_same _ _ _ (fun c q => lay (delay y) F c q * (propagator b (fst x) q - propagator b (fst y) q))).
        + apply vnorm_le; [exact R0|]. unfold vnorm2. rewrite <- rsum_scal. apply rsum_le. intros c _. unfold norm2. rewrite <- rsum_over_scal. apply rsum_over_le. intros q _. rewrite Cmod_mult.
          pose proof (turn_close (fst x) (fst y) q) as Q. fold r in Q. pose proof (Cmod_ge_0 (propagator b (fst x) q - propagator b (fst y) q)) as Q0. set (u := Cmod (propagator b (fst x) q - propagator b (fst y) q)) in *. set (v := Cmod (lay (delay y) F c q)) in *.
          replace (v * u * (v * u))%R with (u * u * (v * v))%R by ring. apply Rmult_le_compat_r; [nra|]. apply Rmult_le_compat; assumption.
        + intros c q Hc Hq. rewrite exact_delay by assumption. f_equal. ring.
      - apply Rmult_le_compat_l; [exact R0|]. apply (lay_power b k); try assumption. intros p Hp. apply delay_le; assumption. }
    lra.
  Qed.
  Lemma similar_nonneg l : forall l' e, similar b k e l l' -> (0 <= e)%R.
  Proof.
    induction l as [|x l IH]; intros [|y l'] e H; cbn [similar] in H; try contradiction; [exact H|]. destruct H as (e1 & e2 & -> & H & H2). specialize (IH _ _ H2). specialize (H origin (shape_inside b G)). unfold detour in H.
    match type of H with (k * (Rabs ?u + Cmod ?z) <= _)%R => pose proof (Rabs_pos u); pose proof (Cmod_ge_0 z) end. nra.
  Qed.
  Lemma slices_detour l : forall l' e F H, similar b k e l l' -> Forall (passive_slice b) l -> Forall (passive_slice b) l' -> tr F -> tr H ->
    (gap b (exact_slices b k l F) (exact_slices b k l' H) <= gap b F H + e * sz F)%R.
  Proof.
    induction l as [|x l IH]; intros [|y l'] e F H S A A' TF TH; cbn [similar] in S; try contradiction.
    - cbn. pose proof (size_nonneg (bcomp b) sh F). unfold exact_slices. cbn. nra.
    - destruct S as (e1 & e2 & -> & S1 & S2). inversion A as [|? ? Ax Al]; subst. inversion A' as [|? ? Ay Al']; subst. unfold exact_slices in *. cbn [fold_left].
      eapply Rle_trans; [apply (IH l' e2); try assumption; apply exact_transverse; assumption|].
      pose proof (slice_detour x y e1 F Ax Ay TF S1) as L. pose proof (exact_near b k G K BK Comp y F H Ay) as N. pose proof (gap_triangle b (exact_slice b k x F) (exact_slice b k y F) (exact_slice b k y H)) as Tr.
      pose proof (exact_size x F Ax TF) as P. pose proof (similar_nonneg l l' e2 S2) as E2. assert (e2 * sz (exact_slice b k x F) <= e2 * sz F)%R by (apply Rmult_le_compat_l; assumption). lra.
  Qed.
  Lemma start_transverse F : tr (exact_start b k F).
  Proof. intros C3. unfold exact_start. rewrite C3. cbn [Nat.eqb]. apply (part_is_transverse b k G K BK C3). Qed.
  Lemma start_size F : (sz (exact_start b k F) <= sz F)%R.
  Proof.
    rewrite (size_same _ _ _ (project b F)) by (intros c q Hc Hq; rewrite (start_exact b k G K BK Comp) by exact Hc; reflexivity). apply size_mono, (project_power b k); assumption.
  Qed.
  Definition slack (l : list (R * option sfield)) (F : vfield) : R := ((all_neglected b k l + k * / 100000000) * sz F + INR (slices (there l)) * (sqrt (INR (bcomp b * points sh)) / 100000000))%R.
  Lemma beam_detour F l l' e s s' : Forall (passive_slice b) l -> Forall (passive_slice b) l' -> similar b k e l l' ->
    (gap b (read_ft b (run b s (SetFt F :: there l))) (read_ft b (run b s' (SetFt F :: there l'))) <= e * sz F + slack l F + slack l' F)%R.
  Proof.
    intros A A' S. pose proof (beam_error b k G K BK Comp Bn F l s A) as E. pose proof (beam_error b k G K BK Comp Bn F l' s' A') as E'.
    pose proof (slices_detour l l' e (exact_start b k F) (exact_start b k F) S A A' (start_transverse F) (start_transverse F)) as D.
    assert (gap b (exact_start b k F) (exact_start b k F) = 0)%R as Z by (unfold gap; rewrite (size_same _ _ _ (fun _ _ => RtoC 0)) by (intros; f_equal; ring); apply zero_size).
    pose proof (start_size F) as P. pose proof (similar_nonneg l l' e S) as E0. assert (e * sz (exact_start b k F) <= e * sz F)%R by (apply Rmult_le_compat_l; assumption).
    pose proof (gap_triangle b (read_ft b (run b s (SetFt F :: there l))) (exact_slices b k l (exact_start b k F)) (read_ft b (run b s' (SetFt F :: there l')))) as T1.
    pose proof (gap_triangle b (exact_slices b k l (exact_start b k F)) (exact_slices b k l' (exact_start b k F)) (read_ft b (run b s' (SetFt F :: there l')))) as T2.
    rewrite (gap_sym b (exact_slices b k l' (exact_start b k F))) in T2. unfold slack. unfold Nearby_Proofs.floor in E, E'. lra.
  Qed.
  Lemma index_similar delta l l' : (0 <= delta)%R -> Forall (passive_slice b) l ->
    Forall2 (fun x y => fst x = fst y /\ forall p, inside sh p -> (Cmod (index_in b (snd x) p - index_in b (snd y) p)%C <= delta)%R) l l' -> similar b k (k * total_thickness l * (delta / Cmod (bn b))) l l'.
  Proof.
    intros D0 A H. assert (0 < Cmod (bn b))%R as BP by (apply Cmod_gt_0, Bn). induction H as [|x y l l' [E Hn] H IH]; [cbn; lra|]. inversion A as [|? ? [Dx _] Al]; subst. cbn [similar total_thickness fold_right]. fold (total_thickness l).
    exists (k * fst x * (delta / Cmod (bn b)))%R, (k * total_thickness l * (delta / Cmod (bn b)))%R. split; [ring|]. split; [|apply IH, Al]. intros p Hp. specialize (Hn p Hp). unfold detour. rewrite <- E. replace (fst x - fst x)%R with 0%R by ring. rewrite Rabs_R0, Rplus_0_l.
    replace (RtoC (fst x) * (index_in b (snd x) p / bn b - 1) - RtoC (fst x) * (index_in b (snd y) p / bn b - 1)) with (RtoC (fst x) * ((index_in b (snd x) p - index_in b (snd y) p) / bn b)) by (field; exact Bn).
    rewrite Cmod_mult, Cmod_div, Cmod_R, Rabs_pos_eq by (exact Bn || lra). rewrite Rmult_assoc. apply Rmult_le_compat_l; [lra|]. apply Rmult_le_compat_l; [lra|]. apply Rmult_le_compat_r; [left; apply Rinv_0_lt_compat, BP|exact Hn].
  Qed.
End Detour.
