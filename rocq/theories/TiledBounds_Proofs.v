(** Beams of any strength that repeat themselves across their sections: C193. *)
From Coq Require Import Reals List Arith Bool ZArith Lia Lra FunctionalExtensionality.
Require Import Verif.Base Verif.CSum Verif.Field Verif.Fourier_Model Verif.Fourier_Spec Verif.Fourier_Proofs Verif.Vec_Model Verif.Vec_Proofs Verif.Solver_Convergence Verif.Magnetic_Norm Verif.Robust_Spec Verif.Robust_Proofs.
Require Import Verif.Cell_Spec Verif.Cell_Proofs Verif.Beam_Model Verif.Beam_Spec Verif.Beam_Proofs Verif.Beam_Media Verif.Beam_Slices Verif.Beam_Vector Verif.Superpose_Spec Verif.Superpose_Proofs.
Require Import Verif.Nearby_Spec Verif.Nearby_Proofs Verif.Neglect_Spec Verif.Neglect_Proofs Verif.Bounds_Proofs Verif.Tiled_Spec Verif.Tiled_Proofs Verif.Cplx.
Import ListNotations.
Local Open Scope R_scope.
Local Open Scope C_scope.

Lemma phase_zeros s : forall j k, Forall (fun i => i = 0%nat) k -> phase s j k = 0%R.
Proof. induction s as [|n s IH]; intros [|a j] [|b k] H; try reflexivity. inversion H; subst. cbn [phase]. rewrite IH by assumption. cbn [INR]. unfold Rdiv. ring. Qed.
Lemma ft_zeros s f k : Forall (fun i => i = 0%nat) k -> ft s f k = sum_over s f.
Proof. intros H. unfold ft. apply sum_over_ext. intros j _. rewrite phase_zeros by exact H. rewrite Ropp_0, cis_0. ring. Qed.
Lemma times_zeros r : forall k, Forall (fun i => i = 0%nat) k -> Forall (fun i => i = 0%nat) (times r k).
Proof. induction r as [|a r IH]; intros [|b k] H; try constructor; inversion H; subst; [lia|]. apply IH; assumption. Qed.
Lemma sum_repeated r s f k : repeats r s -> inside s k -> Forall (fun i => i = 0%nat) k -> sum_over (times r s) (fun p => f (in_cell s p)) = RtoC (INR (points r)) * sum_over s f.
Proof. intros Rp I Z. rewrite <- (ft_zeros s f k Z), <- (ft_zeros (times r s) (fun p => f (in_cell s p)) (times r k) (times_zeros r k Z)). apply ft_repeated_at; assumption. Qed.

Definition repeated_slices (s : list nat) (l : list (R * option sfield)) : list (R * option sfield) := map (fun x => (fst x, repeated_medium s (snd x))) l.
Lemma there_repeated s l : map (repeated_action s) (there l) = there (repeated_slices s l).
Proof. unfold there, repeated_slices. rewrite !map_map. reflexivity. Qed.
Lemma slices_repeated s l : slices (there (repeated_slices s l)) = slices (there l).
Proof. induction l as [|[d [n|]] l IH]; cbn; [reflexivity|f_equal; exact IH|exact IH]. Qed.

Section TiledBounds.
  Variables (b : setup) (r : list nat) (k : R).
  Notation b' := (repeated_setup r b).
  Notation sh := (bshape b).
  Notation sh' := (times r (bshape b)).
  Notation fi := (bfirst b).
  Hypotheses (G : section_grid (bgrid b) (baxis b)) (G' : section_grid (bgrid b') (baxis b)) (Rp : repeats r sh) (Comp : bcomp b = 1%nat \/ bcomp b = 3%nat) (K : (0 < k)%R) (BK : bk b = RtoC k) (Bn : bn b <> 0).
  Notation tile := (repeated_spectrum r sh 3).

  Lemma size_repeated F : size (bcomp b) sh' (repeated sh F) = (sqrt (INR (points r)) * size (bcomp b) sh F)%R.
  Proof.
    unfold size. rewrite <- sqrt_mult by (apply pos_INR || apply vnorm2_nonneg). f_equal. unfold vnorm2. rewrite <- rsum_scal. apply rsum_ext. intros c _. apply RtoC_inj. rewrite RtoC_mult, <- !ip_self. unfold ip.
    apply (sum_repeated r sh (fun p => Cconj (F c p) * F c p) origin Rp (proj2 (cell_origin b G))). repeat constructor.
  Qed.
  Lemma slice_some (a : setup) d n F c q : section_grid (bgrid a) (baxis a) -> bcomp a = 1%nat \/ bcomp a = 3%nat -> bk a = RtoC k -> (c < 3)%nat ->
    exact_slice a k (d, Some n) F c q = project a (fun i => transmit (bgrid a) (bfirst a) (transmittance k (bn a) d n) (F i)) c q * propagator a d q.
  Proof.
    intros Ga Ca Ka Hc. rewrite (propagator_real a k) by assumption. unfold exact_slice. cbn [fst snd]. destruct Ca as [C1|C3].
    - rewrite C1. cbn [Nat.eqb]. rewrite (project_scalar a C1). reflexivity.
    - rewrite C3. cbn [Nat.eqb]. rewrite (project_part a k Ga K Ka C3) by exact Hc. reflexivity.
  Qed.
  Lemma slice_none (a : setup) d F c q : section_grid (bgrid a) (baxis a) -> bk a = RtoC k -> exact_slice a k (d, None) F c q = F c q * propagator a d q.
  Proof. intros Ga Ka. rewrite (propagator_real a k) by assumption. unfold exact_slice. cbn [fst snd]. destruct (bcomp a =? 1)%nat; reflexivity. Qed.
  Lemma propagated_tiled d F F' : tile F F' -> tile (fun c q => F c q * propagator b d q) (fun c q => F' c q * propagator b' d q).
  Proof.
    intros [E1 E2]. split; intros c q Hc Hq; [|intros Off].
    - rewrite (E1 c q Hc Hq), (propagator_tiled b r G Rp d q Hq). ring.
    - rewrite (E2 c q Hc Hq Off). ring.
  Qed.
  Lemma exact_slice_tiled x F F' : tile F F' -> tile (exact_slice b k x F) (exact_slice b' k (fst x, repeated_medium sh (snd x)) F').
  Proof.
    intros T. destruct x as [d [n|]]; cbn [fst snd repeated_medium option_map].
    - eapply (tile_ext b r Rp); [|intros c q Hc _; exact (slice_some b d n F c q G Comp BK Hc)|intros c q Hc _; exact (slice_some b' d (fun p => n (in_cell sh p)) F' c q G' Comp BK Hc)].
      apply propagated_tiled, (project_tiled b r G Rp). unfold transmit. change (bfirst b') with fi. apply (spectrum_tiled b r G G' Rp (fun c p => to_space (bgrid b) fi (F c) p * transmittance k (bn b) d n p)).
      intros c p Hc Hp. rewrite (space_tiled b r G G' Rp F F' T c p Hc Hp). reflexivity.
    - eapply (tile_ext b r Rp); [exact (propagated_tiled d F F' T)|intros c q _ _; exact (slice_none b d F c q G BK)|intros c q _ _; exact (slice_none b' d F' c q G' BK)].
  Qed.
  Lemma exact_slices_tiled l : forall F F', tile F F' -> tile (exact_slices b k l F) (exact_slices b' k (repeated_slices sh l) F').
  Proof. induction l as [|x l IH]; intros F F' T; [exact T|]. unfold exact_slices in *. cbn [fold_left repeated_slices map]. apply IH, exact_slice_tiled, T. Qed.
  Lemma exact_start_tiled F F' : tile F F' -> tile (exact_start b k F) (exact_start b' k F').
  Proof.
    intros T. destruct Comp as [C1|C3].
    - unfold exact_start. change (bcomp b') with (bcomp b). rewrite C1. exact T.
    - eapply (tile_ext b r Rp); [exact (project_tiled b r G Rp F F' T)|intros c q Hc _|intros c q Hc _]; symmetry.
      + apply (start_exact b k G K BK Comp). rewrite C3. exact Hc.
      + apply (start_exact b' k G' K BK Comp). change (bcomp b') with (bcomp b). rewrite C3. exact Hc.
  Qed.
  Definition exact_field (a : setup) (l : list (R * option sfield)) (f : vfield) : vfield :=
    fun c => to_space (bgrid a) (bfirst a) (exact_slices a k l (exact_start a k (fun c => to_spectrum (bgrid a) (bfirst a) (f c))) c).
  Lemma exact_field_tiled l f c p : (c < 3)%nat -> inside sh' p -> exact_field b' (repeated_slices sh l) (repeated sh f) c p = repeated sh (exact_field b l f) c p.
  Proof.
    intros Hc Hp. unfold exact_field at 1. change (bfirst b') with fi. unfold repeated at 2, exact_field. apply (space_tiled b r G G' Rp); [|exact Hc|exact Hp].
    apply exact_slices_tiled, exact_start_tiled, (spectrum_tiled b r G G' Rp). intros ? ? _ _. reflexivity.
  Qed.
  Lemma passive_repeated l : Forall (passive_slice b) l -> Forall (passive_slice b') (repeated_slices sh l).
  Proof.
    intros A. unfold repeated_slices. apply Forall_map. eapply Forall_impl; [|exact A]. intros [d [n|]] [D P]; (split; [exact D|]); cbn; [|exact I]. intros p Hp. apply P, (in_cell_inside r sh p Rp Hp).
  Qed.
  Lemma neglected_repeated l : all_neglected b' k (repeated_slices sh l) = all_neglected b k l.
  Proof.
    induction l as [|[d [n|]] l IH]; [reflexivity| |]; cbn [repeated_slices map all_neglected fold_right fst snd repeated_medium option_map] in *; unfold all_neglected, repeated_slices in IH; rewrite IH; [|reflexivity].
    f_equal. unfold neglected. cbn [fst snd]. change [0; 0; 0]%nat with origin. rewrite (proj1 (cell_origin b G)). reflexivity.
  Qed.
  Lemma repeated_bound l f s t : Forall (passive_slice b) l ->
    (gap b' (read_field b' (run b' t (map (repeated_action sh) (SetField f :: there l)))) (repeated sh (read_field b (run b s (SetField f :: there l)))) <=
     2 * ((all_neglected b k l + k * / 100000000) * size (bcomp b) sh' (repeated sh f)) + (1 + sqrt (INR (points r))) * (INR (slices (there l) + 1) * (sqrt (INR (bcomp b)) / 100000000)))%R.
  Proof.
    intros A. cbn [map repeated_action]. rewrite there_repeated. pose proof (neglect_space b k G K BK Comp Bn f l s A) as E. pose proof (neglect_space b' k G' K BK Comp Bn (repeated sh f) (repeated_slices sh l) t (passive_repeated l A)) as E'.
    rewrite neglected_repeated, slices_repeated in E'. change (bcomp b') with (bcomp b) in E'. change (bshape b') with sh' in E'.
    fold (exact_field b l f) in E. fold (exact_field b' (repeated_slices sh l) (repeated sh f)) in E'.
    set (X := read_field b (run b s (SetField f :: there l))) in *. set (X' := read_field b' (run b' t (SetField (repeated sh f) :: there (repeated_slices sh l)))) in *.
    set (step := (INR (slices (there l) + 1) * (sqrt (INR (bcomp b)) / 100000000))%R) in *.
    assert (gap b' X' (repeated sh X) <= gap b' X' (exact_field b' (repeated_slices sh l) (repeated sh f)) + sqrt (INR (points r)) * gap b X (exact_field b l f))%R as T.
    { eapply Rle_trans; [exact (gap_triangle b' X' (exact_field b' (repeated_slices sh l) (repeated sh f)) (repeated sh X))|]. apply Rplus_le_compat_l. right. unfold gap at 2. rewrite <- size_repeated. rewrite (gap_sym b').
      unfold gap. change (bcomp b') with (bcomp b). change (bshape b') with sh'. apply size_same. intros c p Hc Hp. rewrite exact_field_tiled by (exact Hp || (destruct Comp; lia)). reflexivity. }
    rewrite size_repeated in *. pose proof (sqrt_pos (INR (points r))) as RP. pose proof (Rmult_le_compat_l _ _ _ RP E) as E2. clearbody step. lra.
  Qed.
End TiledBounds.
