(** Proofs about beams that repeat themselves across their sections: C193. *)
From Coq Require Import Reals List Arith Bool ZArith Lia Lra FunctionalExtensionality.
Require Import Verif.Base Verif.CSum Verif.Field Verif.Fourier_Model Verif.Fourier_Spec Verif.Fourier_Proofs Verif.Vec_Model Verif.Vec_Proofs Verif.Modes_Model Verif.Modes_Proofs.
Require Import Verif.Cell_Spec Verif.Cell_Proofs Verif.Beam_Model Verif.Beam_Spec Verif.Beam_Proofs Verif.Beam_Media Verif.Superpose_Spec Verif.Superpose_Proofs Verif.Tiled_Spec Verif.Cplx.
Import ListNotations.
Local Open Scope R_scope.
Local Open Scope C_scope.

Section Tiled.
  Variables (b : setup) (r : list nat).
  Notation b' := (repeated_setup r b).
  Notation sh := (bshape b).
  Notation sh' := (times r (bshape b)).
  Hypotheses (G : section_grid (bgrid b) (baxis b)) (G' : section_grid (bgrid b') (baxis b)) (Rp : repeats r sh) (Comp : (bcomp b <= 3)%nat).
  Notation N := (RtoC (INR (points r))).

  Lemma cells_pos : (1 <= INR (points r))%R.
  Proof.
    change 1%R with (INR 1). apply le_INR. destruct Rp as [_ F]. clear -F. induction F as [|a r Ha F IH]; [cbn; lia|]. change (points (a :: r)) with (a * points r)%nat. nia.
  Qed.
  Lemma ndim3 : rndim (bgrid b) = 3%nat.
  Proof. destruct G as (L & _). exact L. Qed.
  Lemma kvec_tiled c k : (c < 3)%nat -> inside sh k -> kvec (bgrid b') c (times r k) = kvec (bgrid b) c k.
  Proof. intros Hc Hk. apply (kvec_repeated r (bgrid b) Rp); [exact Hk|]. rewrite ndim3. exact Hc. Qed.
  Lemma proj_t_tiled c k : (c < 3)%nat -> inside sh k -> k_proj_t b' c (times r k) = k_proj_t b c k.
  Proof. intros Hc Hk. unfold k_proj_t. rewrite (kvec_tiled c k Hc Hk). reflexivity. Qed.
  Lemma proj_tiled c k : (c < 3)%nat -> inside sh k -> k_proj b' c (times r k) = k_proj b c k.
  Proof.
    intros Hc Hk. unfold k_proj. change (baxis b') with (baxis b). destruct (c =? baxis b)%nat; [|apply proj_t_tiled; assumption]. do 4 f_equal. apply csum_ext. intros i Hi. rewrite proj_t_tiled by assumption. reflexivity.
  Qed.
  Lemma dir_tiled c k : (c < 3)%nat -> inside sh k -> k_dir b' c (times r k) = k_dir b c k.
  Proof.
    intros Hc Hk. unfold k_dir. rewrite (proj_tiled c k Hc Hk). do 3 f_equal. apply rsum_ext. intros i Hi. rewrite proj_tiled by assumption. reflexivity.
  Qed.
  Lemma propagator_tiled d k : inside sh k -> propagator b' d (times r k) = propagator b d k.
  Proof. intros Hk. unfold propagator. change (baxis b') with (baxis b). rewrite dir_tiled; [reflexivity| |exact Hk]. destruct G as (_ & _ & _ & _ & A & _). exact A. Qed.
  Lemma shift_tiled k : inside sh k -> shift_ft b' (times r k) = shift_ft b k.
  Proof. intros Hk. unfold shift_ft. f_equal. apply rsum_ext. intros c Hc. rewrite kvec_tiled by assumption. reflexivity. Qed.
  Notation tile := (repeated_spectrum r sh 3).
  Definition tiles (s t : section) : Prop := tile (field_hat s) (field_hat t) /\ pending t = pending s.
  Lemma spectrum_tiled (f f' : vfield) : vagree 3 sh' f' (repeated sh f) -> tile (fun c => to_spectrum (bgrid b) (bfirst b) (f c)) (fun c => to_spectrum (bgrid b') (bfirst b) (f' c)).
  Proof.
    intros E. assert (nonempty sh) as Ne by apply G.
    assert (forall c k', (c < 3)%nat -> inside sh' k' -> to_spectrum (bgrid b') (bfirst b) (f' c) k' = ft sh' (fun p => f c (in_cell sh p)) k' * Cconj (shift_ft b' k')) as Q.
    { intros c k' Hc Hk. rewrite <- (to_spectrum_ft b') by assumption. f_equal. change (bshape b') with sh'. apply ft_ext. intros p Hp. exact (E c p Hc Hp). }
    split.
    - intros c k Hc Hk. rewrite (Q c _ Hc (times_inside r sh k Rp Hk)), ft_repeated_at, (shift_tiled k Hk) by assumption. rewrite <- (to_spectrum_ft b) by assumption. change (fold_right Nat.mul 1%nat r) with (points r). ring.
    - intros c k' Hc Hk Off. rewrite (Q c k' Hc Hk), ft_repeated_off by assumption. ring.
  Qed.
  Lemma project_tiled F F' : tile F F' -> tile (project b F) (project b' F').
  Proof.
    intros [E1 E2]. split; intros c k Hc Hk; [|intros Off]; unfold project; change (bcomp b') with (bcomp b).
    - destruct (1 <? bcomp b)%nat; [|apply E1; assumption]. rewrite (E1 c k Hc Hk), (dir_tiled c k Hc Hk). rewrite (csum_ext 3 _ (fun i => RtoC (INR (points r)) * (k_dir b i k * F i k))).
      + rewrite csum_scal. change (fold_right Nat.mul 1%nat r) with (points r). ring.
      + intros i Hi. rewrite (E1 i k Hi Hk), (dir_tiled i k Hi Hk). change (fold_right Nat.mul 1%nat r) with (points r). ring.
    - rewrite (E2 c k Hc Hk Off). destruct (1 <? bcomp b)%nat; [|reflexivity]. rewrite (csum_ext 3 _ (fun _ => 0 * 0)) by (intros i Hi; rewrite (E2 i k Hi Hk Off); ring). rewrite csum_scal. ring.
  Qed.
  Lemma tile_ext F F' H H' : tile F F' -> vagree 3 sh H F -> vagree 3 sh' H' F' -> tile H H'.
  Proof.
    intros [E1 E2] A A'. split; intros c k Hc Hk.
    - rewrite (A' c _ Hc (times_inside r sh k Rp Hk)), (A c k Hc Hk). apply E1; assumption.
    - intros Off. rewrite (A' c k Hc Hk). apply E2; assumption.
  Qed.
  Lemma set_field_tiled f f' : vagree 3 sh' f' (repeated sh f) -> tiles (set_field b f) (set_field b' f').
  Proof.
    intros E. split; [|unfold set_field; destruct (extended b), (extended b'); reflexivity].
    eapply tile_ext; [exact (project_tiled _ _ (spectrum_tiled f f' E))| |]; intros c q Hc Hq; [apply (set_field_spectrum b G)|apply (set_field_spectrum b' G')]; assumption.
  Qed.
  Lemma settle_tiled s t : tiles s t -> tiles (settle b s) (settle b' t).
  Proof.
    intros [[E1 E2] P]. unfold settle. rewrite P. destruct (tiny _); [split; [split|]; assumption|]. split; [|reflexivity]. cbn [field_hat]. split; intros c k Hc Hk; [|intros Off].
    - rewrite (E1 c k Hc Hk), (propagator_tiled _ k Hk). ring.
    - rewrite (E2 c k Hc Hk Off). ring.
  Qed.
  Lemma read_tiled s t : tiles s t -> tile (read_ft b s) (read_ft b' t).
  Proof. intros T. exact (proj1 (settle_tiled s t T)). Qed.
  Lemma view_tiled F F' : tile F F' -> in_view b F -> in_view b' F'.
  Proof.
    intros [E1 _] (c & q & Hc & Hq & L). exists c, (times r q). split; [exact Hc|]. split; [exact (times_inside r sh q Rp Hq)|].
    rewrite (E1 c q ltac:(lia) Hq), Cmod_mult, Cmod_R, Rabs_pos_eq by apply pos_INR. pose proof cells_pos as CP. change (fold_right Nat.mul 1%nat r) with (points r). pose proof (Cmod_ge_0 (F c q)). nra.
  Qed.
  Lemma space_tiled F F' : tile F F' -> forall c p, (c < 3)%nat -> inside sh' p -> to_space (bgrid b') (bfirst b) (F' c) p = to_space (bgrid b) (bfirst b) (F c) (in_cell sh p).
  Proof.
    intros [E1 E2] c p Hc Hp. set (f := fun c => to_space (bgrid b) (bfirst b) (F c)).
    destruct (spectrum_tiled f (repeated sh f) ltac:(intros ? ? _ _; reflexivity)) as [S1 S2].
    transitivity (to_space (bgrid b') (bfirst b) (to_spectrum (bgrid b') (bfirst b) (repeated sh f c)) p); [|exact (space_spectrum b' G' (repeated sh f c) p Hp)].
    apply (to_space_ext b'). intros k' Hk. destruct (frequency_cases r sh k') as [(k & Hk1 & <-)|Off].
    - rewrite (E1 c k Hc Hk1), (S1 c k Hc Hk1). f_equal. unfold f. symmetry. exact (spectrum_space b G (F c) k Hk1).
    - rewrite (E2 c k' Hc Hk Off), (S2 c k' Hc Hk Off). reflexivity.
  Qed.
  Lemma read_field_tiled s t : tiles s t -> in_view b (read_ft b s) -> vagree 3 sh' (read_field b' t) (repeated sh (read_field b s)).
  Proof.
    intros T V c p Hc Hp. pose proof (read_tiled s t T) as E. rewrite (read_field_space b' G') by (exact Hp || (left; exact (view_tiled _ _ E V))). unfold repeated.
    rewrite (read_field_space b G) by (exact (in_cell_inside r sh p Rp Hp) || (left; exact V)). apply space_tiled; [exact E|exact Hc|exact Hp].
  Qed.
  Lemma move_tiled s t d : tiles s t -> tiles (move s d) (move t d).
  Proof. intros (F & P). split; [exact F|]. cbn. rewrite P. reflexivity. Qed.
  Lemma cell_origin : in_cell sh origin = origin /\ inside sh origin.
  Proof.
    assert (inside sh origin) as I0; [|split; [apply in_cell_inside_id|]; exact I0].
    destruct G as (L & _ & Ne & _). unfold bshape. destruct (rshape (bgrid b)) as [|n0 [|n1 [|n2 [|]]]]; try discriminate L. inversion Ne as [|? ? N0 N']; subst. inversion N' as [|? ? N1 N'']; subst. inversion N'' as [|? ? N2 _]; subst. repeat constructor; assumption.
  Qed.
  Lemma uniform_tiled n : uniform b' (fun p => n (in_cell sh p)) = uniform b n.
  Proof.
    unfold uniform. rewrite (proj1 cell_origin). change (bshape b') with sh'. apply eq_true_iff_eq. rewrite !forallb_forall. split; intros H p Hp; apply indices_inside in Hp.
    - specialize (H p (proj2 (indices_inside _ _) (cell_inside r sh p Rp Hp))). rewrite (in_cell_inside_id sh p Hp) in H. exact H.
    - exact (H (in_cell sh p) (proj2 (indices_inside _ _) (in_cell_inside r sh p Rp Hp))).
  Qed.
  Lemma interact_tiled s t d n : tiles s t -> uniform b n = true \/ in_view b (read_ft b s) -> tiles (interact b s d n) (interact b' t d (fun p => n (in_cell sh p))).
  Proof.
    intros T V. unfold interact. rewrite uniform_tiled, (proj1 cell_origin). change (excess b') with (excess b). change (bk b') with (bk b). destruct (uniform b n).
    - destruct (tiny _); [exact T|]. destruct T as [[E1 E2] P]. split; [|exact P]. cbn [field_hat]. split; intros c k Hc Hk; [|intros Off].
      + rewrite (E1 c k Hc Hk). ring.
      + rewrite (E2 c k Hc Hk Off). ring.
    - destruct V as [V|V]; [discriminate|]. apply set_field_tiled. intros c p Hc Hp. rewrite (read_field_tiled s t T V c p Hc Hp). reflexivity.
  Qed.
  Lemma propagate_tiled s t d m : tiles s t ->
    (forall n, m = Some n -> uniform b n = true \/ in_view b (read_ft b (if Rltb d 0 then move s d else s))) ->
    tiles (propagate b s d m) (propagate b' t d (repeated_medium sh m)).
  Proof.
    intros T V. unfold propagate. assert (tiles (if Rltb d 0 then move s d else s) (if Rltb d 0 then move t d else t)) as T1 by (destruct (Rltb d 0); [apply move_tiled|]; exact T).
    destruct m as [n|]; cbn [repeated_medium option_map].
    - pose proof (interact_tiled _ _ d n T1 (V n eq_refl)) as T2. destruct (Rltb 0 d); [apply move_tiled|]; exact T2.
    - destruct (Rltb 0 d); [apply move_tiled|]; exact T1.
  Qed.
  Lemma act_flat_tiled s t a : flat_medium sh a -> tiles s t -> tiles (act b s a) (act b' t (repeated_action sh a)).
  Proof.
    intros A T. destruct a as [d m| | |F|f]; try contradiction; cbn [act repeated_action]; [|apply settle_tiled, T..]. apply propagate_tiled; [exact T|]. intros n ->. left. exact (flat_uniform b d n A).
  Qed.
  Lemma run_flat_tiled l : Forall (flat_medium sh) l -> forall s t, tiles s t -> tiles (run b s l) (run b' t (map (repeated_action sh) l)).
  Proof. intros H. induction H as [|a l A H IH]; intros s t T; [exact T|]. unfold run in *. cbn [map fold_left]. apply IH, act_flat_tiled; assumption. Qed.
  Section Real.
  Variable k : R.
  Hypothesis (K : (0 < k)%R) (BK : bk b = RtoC k).
  Lemma act_tiled s t a : passes a -> tiles s t -> in_view b (read_ft b s) -> tiles (act b s a) (act b' t (repeated_action sh a)).
  Proof.
    intros A T V. destruct a as [d m| | |F|f]; try contradiction; cbn [act repeated_action]; [|apply settle_tiled, T..].
    apply propagate_tiled; [exact T|]. intros n _. right. destruct (Rltb d 0); [|exact V]. destruct V as (c & q & Hc & Hq & L). exists c, q. split; [exact Hc|]. split; [exact Hq|]. unfold read_ft in *. rewrite (moved_mod b k K BK G). exact L.
  Qed.
  Lemma run_tiled l : Forall passes l -> forall s t, tiles s t -> (forall i, (i <= length l)%nat -> in_view b (read_ft b (run b s (firstn i l)))) ->
    tiles (run b s l) (run b' t (map (repeated_action sh) l)) /\ vagree 3 sh' (read_field b' (run b' t (map (repeated_action sh) l))) (repeated sh (read_field b (run b s l))).
  Proof.
    intros H. induction H as [|a l A H IH]; intros s t T V.
    - split; [exact T|]. apply read_field_tiled; [exact T|exact (V 0%nat (le_n 0))].
    - unfold run in *. cbn [map fold_left]. apply IH; [apply act_tiled; [exact A|exact T|exact (V 0%nat ltac:(cbn; lia))]|]. intros i Hi. exact (V (Datatypes.S i) ltac:(cbn; lia)).
  Qed.
  End Real.
End Tiled.
