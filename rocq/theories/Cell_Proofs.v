(** Periodic structures. *)
From Coq Require Import Reals Lra Lia List Arith Bool ZArith FunctionalExtensionality.
Require Import Verif.Base Verif.Cplx Verif.CSum Verif.Field Verif.Fourier_Model Verif.Fourier_Spec Verif.Fourier_Proofs.
Require Import Verif.Vec_Model Verif.Vec_Spec Verif.Vec_Proofs Verif.Solver_Model Verif.Solver_Spec Verif.Solver_Proofs Verif.Solver_Choice.
Require Verif.Solver_Bounded.
Require Import Verif.Choice_Model Verif.Choice_Proofs Verif.Symmetry_Spec Verif.Symmetry_Shift Verif.Cell_Spec.
Import ListNotations.
Local Open Scope R_scope.
Local Open Scope C_scope.

(** ** Points *)
Lemma times_points r s : length r = length s -> points (times r s) = (points r * points s)%nat.
Proof. revert s. induction r as [|a r IH]; intros [|n s] H; try discriminate H; [reflexivity|]. injection H as H. cbn [times points]. change (a * n * points (times r s) = a * points r * (n * points s))%nat. rewrite IH by exact H. lia. Qed.
Lemma in_cell_inside r s p : repeats r s -> inside (times r s) p -> inside s (in_cell s p).
Proof.
  intros [L F]. revert s p L. induction F as [|a r Ha F IH]; intros [|n s] p L Hp; try discriminate L; [constructor|]. injection L as L. cbn [times] in Hp. inversion Hp; subst. cbn [in_cell]. constructor; [apply Nat.mod_upper_bound; lia|apply IH; assumption].
Qed.
Lemma times_inside r s k : repeats r s -> inside s k -> inside (times r s) (times r k).
Proof.
  intros [L F] Hk. revert s k L Hk. induction F as [|a r Ha F IH]; intros [|n s] k L Hk; try discriminate L; inversion Hk; subst; [constructor|]. injection L as L. cbn [times]. constructor; [apply Nat.mul_lt_mono_pos_l; assumption|apply IH; assumption].
Qed.
Lemma cell_inside r s p : repeats r s -> inside s p -> inside (times r s) p.
Proof.
  intros [L F] Hp. revert s p L Hp. induction F as [|a r Ha F IH]; intros [|n s] p L Hp; try discriminate L; inversion Hp; subst; [constructor|]. injection L as L. cbn [times]. constructor; [nia|apply IH; assumption].
Qed.
Lemma in_cell_inside_id s p : inside s p -> in_cell s p = p.
Proof. intros H. induction H as [|n a s p Ha H IH]; [reflexivity|]. cbn [in_cell]. rewrite Nat.mod_small, IH by assumption. reflexivity. Qed.
Lemma times_injective r s k l : repeats r s -> inside s k -> inside s l -> times r k = times r l -> k = l.
Proof.
  intros [L F] Hk Hl. revert s k l L Hk Hl. induction F as [|a r Ha F IH]; intros [|n s] k l L Hk Hl E; try discriminate L; inversion Hk; subst; inversion Hl; subst; [reflexivity|]. injection L as L. cbn [times] in E.
  pose proof (f_equal (hd 0%nat) E) as E1. pose proof (f_equal (@tl nat) E) as E2. cbn [hd tl] in E1, E2. f_equal; [nia|eapply IH; eassumption].
Qed.
Lemma cell_phase r s p k : repeats r s -> inside (times r s) p -> inside s k -> cis (phase s (in_cell s p) k) = cis (phase (times r s) p (times r k)).
Proof.
  intros [L F] Hp Hk. revert s p k L Hp Hk. induction F as [|a r Ha F IH]; intros [|n s] p k L Hp Hk; try discriminate L; [reflexivity|]. injection L as L. cbn [times] in Hp. inversion Hp; subst. inversion Hk; subst. cbn [in_cell times phase].
  rewrite !cis_plus. f_equal; [|apply IH; assumption]. rewrite cis_mod_nat by lia. f_equal. rewrite !mult_INR. field. split; apply not_0_INR; lia.
Qed.
Lemma times_nonempty r s : repeats r s -> nonempty s -> nonempty (times r s).
Proof. intros [L F] H. revert s L H. induction F as [|a r Ha F IH]; intros [|n s] L H; try discriminate L; [constructor|]. injection L as L. inversion H; subst. cbn [times]. constructor; [nia|apply IH; assumption]. Qed.

(** ** Fourier transforms *)
Lemma ft_repeated r s f k' : repeats r s -> nonempty s -> inside (times r s) k' ->
  ft (times r s) (fun p => f (in_cell s p)) k' = RtoC (INR (points r)) * sum_over s (fun k => if idx_eqb (times r k) k' then ft s f k else 0).
Proof.
  intros Hr Hs Hk'. pose proof (points_neq_0 s Hs) as PZ. pose proof (times_points r s (proj1 Hr)) as PT. unfold ft at 1.
  transitivity (sum_over (times r s) (fun p => sum_over s (fun k => ft s f k / RtoC (INR (points s)) * (cis (phase (times r s) p (times r k)) * cis (- phase (times r s) p k'))))).
  - apply sum_over_ext. intros p Hp. rewrite <- (ift_ft s f (in_cell s p) (in_cell_inside r s p Hr Hp)). unfold ift at 1. unfold Cdiv at 1. rewrite <- Cmult_assoc, <- sum_over_scal_r. apply sum_over_ext. intros k Hk. rewrite (cell_phase r s p k Hr Hp Hk). unfold Cdiv. ring.
  - rewrite sum_over_swap, <- sum_over_scal. apply sum_over_ext. intros k Hk. rewrite sum_over_scal.
    rewrite (sum_over_ext (times r s) _ (fun p => cis (phase (times r s) p (times r k) - phase (times r s) p k'))) by (intros p _; unfold Rminus; rewrite cis_plus; reflexivity).
    rewrite (sum_over_ext (times r s) _ (fun p => cis (phase (times r s) (times r k) p - phase (times r s) k' p))) by (intros p _; rewrite (phase_sym _ p (times r k)), (phase_sym _ p k'); reflexivity).
    rewrite sum_over_orthogonal, PT, mult_INR, RtoC_mult by (try assumption; apply times_inside; assumption). destruct (idx_eqb (times r k) k'); [field; exact PZ|ring].
Qed.
Lemma ft_repeated_at r s f k : repeats r s -> inside s k -> ft (times r s) (fun p => f (in_cell s p)) (times r k) = RtoC (INR (points r)) * ft s f k.
Proof.
  intros Hr Hk. rewrite (ft_repeated r s f _ Hr (inside_nonempty s k Hk) (times_inside r s k Hr Hk)). f_equal. rewrite <- (sum_over_delta s k (ft s f) Hk). apply sum_over_ext. intros j Hj.
  destruct (idx_eqb_spec (times r j) (times r k)) as [E|E], (idx_eqb_spec j k) as [E'|E']; try reflexivity; [apply (times_injective r s) in E; try assumption; contradiction|subst j; contradiction].
Qed.
Lemma ft_repeated_off r s f k' : repeats r s -> inside (times r s) k' -> nonempty s -> (forall k, inside s k -> times r k <> k') -> ft (times r s) (fun p => f (in_cell s p)) k' = 0.
Proof.
  intros Hr Hk' Hs H. rewrite (ft_repeated r s f _ Hr Hs Hk'). rewrite (sum_over_ext s _ (fun _ => 0)); [rewrite sum_over_zero; ring|]. intros k Hk. destruct (idx_eqb_spec (times r k) k') as [E|E]; [|reflexivity]. exfalso. exact (H k Hk E).
Qed.
Lemma frequency_cases r s k' : (exists k, inside s k /\ times r k = k') \/ (forall k, inside s k -> times r k <> k').
Proof.
  destruct (any_over s (fun k => idx_eqb (times r k) k')) eqn:E.
  - apply any_over_spec in E as (k & Hk & E). left. exists k. split; [exact Hk|]. destruct (idx_eqb_spec (times r k) k'); [assumption|discriminate].
  - right. intros k Hk Ek. assert (any_over s (fun k => idx_eqb (times r k) k') = true) as T; [|congruence]. apply any_over_spec. exists k. split; [exact Hk|]. destruct (idx_eqb_spec (times r k) k'); [reflexivity|contradiction].
Qed.
Lemma convolve_repeated r s m op op' F : repeats r s -> nonempty s -> pointwise s m op -> multiplies s m op -> pointwise (times r s) m op' -> multiplies (times r s) m op' ->
  (forall G c k, (c < m)%nat -> inside s k -> op' G c (times r k) = op (fun d l => G d (times r l)) c k) ->
  vagree m (times r s) (convolve (times r s) op' (repeated s F)) (repeated s (convolve s op F)).
Proof.
  intros Hr Hs Hp Hm Hp' Hm' H c p' Hc Hip. unfold convolve at 1, vift. rewrite <- (ift_ft (times r s) (repeated s (convolve s op F) c) p' Hip). apply ift_ext. intros k' Hk'. unfold repeated at 2.
  destruct (frequency_cases r s k') as [(k & Hk & <-)|N].
  - rewrite (ft_repeated_at r s (fun p => convolve s op F c p) k Hr Hk). change (fun p => convolve s op F c p) with (ift s (op (vft s F) c)). rewrite (ft_ift s (op (vft s F) c) k Hk), (H _ c k Hc Hk), <- (Hm _ (vft s F) c k Hc Hk).
    apply (Hp _ _ k Hk); [|exact Hc]. intros d Hd. unfold vft, repeated. apply (ft_repeated_at r s (F d) k Hr Hk).
  - rewrite (ft_repeated_off r s (fun p => convolve s op F c p) k' Hr Hk' Hs N).
    rewrite (Hp' _ (fun d l => 0 * vft (times r s) F d l) k' Hk'); [rewrite (Hm' 0 _ c k' Hc Hk'); ring| |exact Hc]. intros d Hd. unfold vft, repeated. rewrite (ft_repeated_off r s (F d) k' Hr Hk' Hs N). ring.
Qed.

(** ** Wave vectors *)
Lemma k_axis_times a n st j : (0 < a)%nat -> (j < n)%nat -> k_axis (a * n) st (a * j) = k_axis n st j.
Proof.
  intros Ha Hj. unfold k_axis, k_index. replace (2 * (a * j) <? a * n)%nat with (2 * j <? n)%nat by (destruct (Nat.ltb_spec (2 * j) n), (Nat.ltb_spec (2 * (a * j)) (a * n)); try reflexivity; nia).
  rewrite mult_INR. assert (A : INR a <> 0%R) by (apply not_0_INR; lia). destruct (2 * j <? n)%nat; rewrite ?minus_IZR, !Nat2Z.inj_mul, ?mult_IZR, <- ?INR_IZR_INZ; unfold Rdiv; (destruct (Req_dec (INR n * st) 0) as [Z|Z];
    [replace (INR a * INR n * st)%R with (INR a * (INR n * st))%R by ring; rewrite Z, Rmult_0_r, Rinv_0; ring|]); field; repeat split; try exact A; intros E; apply Z; rewrite E; ring.
Qed.
Lemma times_nth r s i d : repeats r s -> (i < length s)%nat -> nth i (times r s) d = (nth i r 0 * nth i s 0)%nat.
Proof.
  intros [L F]. revert s i L. induction F as [|a r Ha F IH]; intros [|n s] i L Hi; cbn [length] in *; try discriminate L; try lia. injection L as L. destruct i as [|i]; cbn [nth times]; [reflexivity|]. apply IH; [exact L|lia].
Qed.
Lemma times_length r s : length r = length s -> length (times r s) = length s.
Proof. revert s. induction r as [|a r IH]; intros [|n s] L; try discriminate L; [reflexivity|]. injection L as L. cbn [times length]. rewrite IH by exact L. reflexivity. Qed.
Lemma times_origin r s k : repeats r s -> inside s k -> is_origin (times r k) = is_origin k.
Proof.
  intros [L F] Hk. revert s k L Hk. induction F as [|a r Ha F IH]; intros [|n s] k L Hk; try discriminate L; inversion Hk; subst; [reflexivity|]. injection L as L. unfold is_origin in *. cbn [times forallb]. rewrite (IH s) by assumption. f_equal.
  destruct y; [rewrite Nat.mul_0_r; reflexivity|]. destruct a; [lia|reflexivity].
Qed.
Section Waves.
  Variables (r : list nat) (g : raster).
  Hypothesis Hr : repeats r (rshape g).
  Let s := rshape g.
  Let g' := repeated_grid r g.
  Lemma repeated_ndim : rndim g' = rndim g.
  Proof. unfold rndim, g', repeated_grid. cbn [rshape]. apply times_length, Hr. Qed.
  Lemma kvec_repeated i k : inside s k -> (i < rndim g)%nat -> kvec g' i (times r k) = kvec g i k.
  Proof.
    intros Hk Hi. pose proof (inside_length _ _ Hk) as L. unfold s in L. unfold kvec, g', repeated_grid. cbn [rshape rstep]. unfold rndim in Hi.
    assert (Hrk : repeats r k) by (destruct Hr as [E F]; split; [congruence|exact F]). rewrite (times_nth r (rshape g) i 1 Hr Hi), (times_nth r k i 0 Hrk) by lia.
    rewrite (nth_indep (rshape g) 1%nat 0%nat) by exact Hi. apply k_axis_times.
    - destruct Hr as [E F]. rewrite List.Forall_forall in F. apply F, nth_In. lia.
    - pose proof (inside_nth _ _ i Hk Hi) as Q. rewrite (nth_indep _ 1%nat 0%nat) in Q by exact Hi. exact Q.
  Qed.
  Lemma k2_repeated k : inside s k -> k2 g' (times r k) = k2 g k.
  Proof. intros Hk. unfold k2. rewrite repeated_ndim. apply rsum_ext. intros i Hi. rewrite kvec_repeated by assumption. reflexivity. Qed.
  Lemma longitudinal_repeated G c k : inside s k -> longitudinal_ft g' G c (times r k) = longitudinal_ft g (fun d l => G d (times r l)) c k.
  Proof.
    intros Hk. unfold longitudinal_ft. rewrite repeated_ndim, (times_origin r s k Hr Hk). destruct (Nat.ltb_spec c (rndim g)) as [L|L]; [|reflexivity]. rewrite (kvec_repeated c k Hk L), (k2_repeated k Hk).
    destruct (is_origin k); [reflexivity|]. f_equal. f_equal. apply csum_ext. intros i Hi. rewrite kvec_repeated by assumption. reflexivity.
  Qed.
  Lemma curl_ft_repeated n G c k : inside s k -> curl_ft g' n n G c (times r k) = curl_ft g n n (fun d l => G d (times r l)) c k.
  Proof.
    intros Hk. unfold curl_ft. cbv zeta. rewrite repeated_ndim. set (o0 := ((c + n - 1) mod n)%nat). set (o1 := ((c + 1) mod n)%nat).
    destruct (Nat.ltb_spec o1 (rndim g)) as [L1|L1], (Nat.ltb_spec o0 (rndim g)) as [L0|L0]; rewrite ?andb_false_r, ?andb_true_r; rewrite ?(kvec_repeated o0 k Hk L0), ?(kvec_repeated o1 k Hk L1); reflexivity.
  Qed.
  Lemma curl_pointwise_any (h : raster) t n : pointwise t n (curl_ft h n n).
  Proof.
    intros F G p Hp H c Hc. unfold curl_ft. cbv zeta. destruct (Nat.ltb_spec ((c + n - 1) mod n) n) as [L0|L0], (Nat.ltb_spec ((c + 1) mod n) n) as [L1|L1]; cbn [andb]; rewrite ?(H _ L0), ?(H _ L1); reflexivity.
  Qed.
  Lemma curl_multiplies_any (h : raster) t n : multiplies t n (curl_ft h n n).
  Proof.
    intros w F c k Hc Hk. unfold curl_ft. cbv zeta. destruct (Nat.ltb _ n && _)%bool, (Nat.ltb _ n && _)%bool; ring.
  Qed.
  Hypothesis Hs : nonempty s.
  Lemma curl_repeated n F : vagree n (times r s) (curl g' n (repeated s F)) (repeated s (curl g n F)).
  Proof.
    unfold curl. apply (convolve_repeated r s n (curl_ft g n n) (curl_ft g' n n) F Hr Hs); [apply curl_pointwise_any|apply curl_multiplies_any|apply curl_pointwise_any|apply curl_multiplies_any|].
    intros G c k _ Hk. apply curl_ft_repeated, Hk.
  Qed.
End Waves.

(** ** The iteration *)
Notation rp := repeated_tensor.
Lemma tapply_repeated s t F c p : tapply (rp s t) (repeated s F) c p = repeated s (tapply t F) c p.
Proof. destruct t; reflexivity. Qed.
Section Iteration.
  Variables (r : list nat) (g : raster) (v mag : bool) (alpha : C) (beta : R) (epsilon xi zeta mu : tensor) (S : vfield).
  Hypothesis Hr : repeats r (rshape g).
  Hypothesis Hs : nonempty (rshape g).
  Hypothesis Hn : v = true -> (rndim g <= 3)%nat.
  Hypothesis Hf : fits v epsilon /\ fits v xi /\ fits v zeta /\ fits v mu.
  Let s := rshape g.
  Let s' := times r s.
  Let n := (if v then 3 else 1)%nat.
  Let o := prepare g v mag alpha beta epsilon xi zeta mu S.
  Let o' := prepare (repeated_grid r g) v mag alpha beta (rp s epsilon) (rp s xi) (rp s zeta) (rp s mu) (repeated s S).
  Lemma rp_tensors : o_chiEE o' = rp s (o_chiEE o) /\ o_chiEH o' = rp s (o_chiEH o) /\ o_chiHE o' = rp s (o_chiHE o) /\ o_chiHH o' = rp s (o_chiHH o).
  Proof.
    clear Hf. unfold o, o', prepare, update_operators, precondition. cbn [o_chiEE o_chiEH o_chiHE o_chiHH o_alpha].
    destruct epsilon, xi, zeta, mu, mag; refine (conj eq_refl (conj eq_refl (conj eq_refl eq_refl))).
  Qed.
  Lemma rp_fits : fits v (o_chiEE o') /\ fits v (o_chiEH o') /\ fits v (o_chiHE o') /\ fits v (o_chiHH o').
  Proof.
    unfold o', prepare, update_operators, precondition. cbn [o_chiEE o_chiEH o_chiHE o_chiHH o_alpha]. destruct Hf as (F1 & F2 & F3 & F4).
    destruct epsilon, xi, zeta, mu, mag; cbn in *; refine (conj _ (conj _ (conj _ _))); first [exact I|assumption].
  Qed.
  Lemma rp_apply t F G : fits v t -> vagree n s' F G -> vagree n s' (tapply t F) (tapply t G).
  Proof. intros Ht. apply tapply_vagree. unfold n. destruct v; [left; reflexivity|]. destruct t; [right; exact I|discriminate Ht]. Qed.
  Lemma rp_curl F : vagree n s' (curl (repeated_grid r g) n (repeated s F)) (repeated s (curl g n F)).
  Proof. exact (curl_repeated r g Hr Hs n F). Qed.
  Lemma rp_curl_vagree F G : vagree n s' F G -> vagree n s' (curl (repeated_grid r g) n F) (curl (repeated_grid r g) n G).
  Proof. exact (convolve_vagree s' n _ F G (curl_pointwise_any (repeated_grid r g) s' n)). Qed.
  Lemma rp_length : vector_length o' = n /\ vector_length o = n.
  Proof. split; unfold vector_length, n; destruct v; reflexivity. Qed.
  Lemma rp_chi F : vagree n s' (chi_op o' (repeated s F)) (repeated s (chi_op o F)).
  Proof.
    destruct rp_tensors as (T1 & T2 & T3 & T4), rp_fits as (F1 & F2 & F3 & F4), rp_length as (L' & L). intros c p Hc Hp. change (repeated s (chi_op o F) c p) with (chi_op o F c (in_cell s p)). unfold chi_op. rewrite L, L'. change (o_magnetic o') with mag. change (o_magnetic o) with mag. change (o_grid o') with (repeated_grid r g). change (o_grid o) with g. cbv zeta.
    destruct mag; [|rewrite T1; apply tapply_repeated].
    set (X := fun c p => tapply (o_chiEH o) F c p + tapply (o_chiHH o) (curl g n F) c p).
    assert (V : vagree n s' (fun c p => tapply (o_chiEH o') (repeated s F) c p + tapply (o_chiHH o') (curl (repeated_grid r g) n (repeated s F)) c p) (repeated s X)).
    { intros c' p' Hc' Hp'. rewrite (rp_apply _ _ _ F4 (rp_curl F) c' p' Hc' Hp'), T2, T4, !tapply_repeated. reflexivity. }
    rewrite (rp_curl_vagree _ _ V c p Hc Hp), (rp_curl X c p Hc Hp), (rp_apply _ _ _ F3 (rp_curl F) c p Hc Hp), T1, T3, !tapply_repeated. reflexivity.
  Qed.
  Lemma rp_chi_vagree F G : vagree n s' F G -> vagree n s' (chi_op o' F) (chi_op o' G).
  Proof.
    destruct rp_fits as (F1 & F2 & F3 & F4), rp_length as (L' & _). intros H. pose proof (rp_curl_vagree F G H) as D. intros c p Hc Hp. unfold chi_op. rewrite L'. change (o_magnetic o') with mag. change (o_grid o') with (repeated_grid r g). cbv zeta.
    destruct mag; [|apply (rp_apply _ _ _ F1 H c p Hc Hp)].
    rewrite (rp_apply _ _ _ F1 H c p Hc Hp), (rp_apply _ _ _ F3 D c p Hc Hp). f_equal. apply rp_curl_vagree; [|exact Hc|exact Hp].
    intros c' p' Hc' Hp'. rewrite (rp_apply _ _ _ F2 H c' p' Hc' Hp'), (rp_apply _ _ _ F4 D c' p' Hc' Hp'). reflexivity.
  Qed.
  Lemma rp_pointwise : pointwise s n (g_ft_op o).
  Proof. apply (g_pointwise o n). intros e. change (o_vectorial o) with v in e. unfold n. rewrite e. apply Hn, e. Qed.
  Lemma rp_pointwise' : pointwise s' n (g_ft_op o').
  Proof. apply (g_pointwise o' n). intros e. change (o_vectorial o') with v in e. unfold n. rewrite e. change (o_grid o') with (repeated_grid r g). rewrite (repeated_ndim r g Hr). apply Hn, e. Qed.
  Lemma rp_green F : vagree n s' (green_op o' (repeated s F)) (repeated s (green_op o F)).
  Proof.
    apply (convolve_repeated r s n (g_ft_op o) (g_ft_op o') F Hr Hs rp_pointwise (g_multiplies o n) rp_pointwise' (g_multiplies o' n)).
    intros G c k _ Hk. unfold g_ft_op, g_scalar. change (o_vectorial o') with v. change (o_vectorial o) with v. change (o_grid o') with (repeated_grid r g). change (o_grid o) with g. change (o_alpha o') with (o_alpha o).
    rewrite (longitudinal_repeated r g Hr G c k Hk), (k2_repeated r g Hr k Hk). reflexivity.
  Qed.
  Lemma rp_green_vagree F G : vagree n s' F G -> vagree n s' (green_op o' F) (green_op o' G).
  Proof. exact (convolve_vagree s' n (g_ft_op o') F G rp_pointwise'). Qed.
  Lemma rp_update F F' : vagree n s' F' (repeated s F) -> vagree n s' (update o' F') (repeated s (update o F)).
  Proof.
    intros H. unfold update. cbv zeta.
    set (X := fun c p => chi_op o F c p + o_source o c p). set (X' := fun c p => chi_op o' F' c p + o_source o' c p). set (D := fun c p => green_op o X c p - F c p).
    assert (A : vagree n s' X' (repeated s X)).
    { intros c p Hc Hp. unfold X', X. rewrite (rp_chi_vagree F' _ H c p Hc Hp), (rp_chi F c p Hc Hp). reflexivity. }
    assert (B : vagree n s' (fun c p => green_op o' X' c p - F' c p) (repeated s D)).
    { intros c p Hc Hp. rewrite (rp_green_vagree X' _ A c p Hc Hp), (rp_green X c p Hc Hp), (H c p Hc Hp). reflexivity. }
    intros c p Hc Hp. rewrite (rp_chi_vagree _ _ B c p Hc Hp). apply rp_chi; assumption.
  Qed.
  Lemma rp_iter F i : vagree n s' (Nat.iter i (next_field o') (repeated s F)) (repeated s (Nat.iter i (next_field o) F)).
  Proof.
    induction i as [|i IH]; [intros c p _ _; reflexivity|]. intros c p Hc Hp.
    change (next_field o' (Nat.iter i (next_field o') (repeated s F)) c p = repeated s (next_field o (Nat.iter i (next_field o) F)) c p).
    unfold next_field at 1. rewrite (rp_update _ _ IH c p Hc Hp), (IH c p Hc Hp). reflexivity.
  Qed.
End Iteration.

(** ** The constants do not change *)
Section Constants.
  Variables (eps : R) (r s : list nat).
  Hypothesis Hr : repeats r s.
  Hypothesis Hs : nonempty s.
  Lemma rmax_over_repeated F : rmax_over (times r s) (fun p => F (in_cell s p)) = rmax_over s F.
  Proof.
    apply Rle_antisym; apply rmax_over_least; try apply Solver_Bounded.rmax_over_nonneg; intros p Hp.
    - apply rmax_over_ge. exact (in_cell_inside r s p Hr Hp).
    - pose proof (rmax_over_ge (times r s) (fun p => F (in_cell s p)) p (cell_inside r s p Hr Hp)) as H. cbv beta in H. rewrite in_cell_inside_id in H by assumption. exact H.
  Qed.
  Lemma any_over_repeated F : any_over (times r s) (fun p => F (in_cell s p)) = any_over s F.
  Proof.
    apply eq_true_iff_eq. rewrite !any_over_spec. split; intros (p & Hp & H).
    - exists (in_cell s p). split; [exact (in_cell_inside r s p Hr Hp)|exact H].
    - exists p. split; [exact (cell_inside r s p Hr Hp)|]. rewrite in_cell_inside_id by assumption. exact H.
  Qed.
  Lemma rp_tsub a b : tsub (rp s a) (rp s b) = rp s (tsub a b).
  Proof. destruct a, b; reflexivity. Qed.
  Lemma rp_tadd a b : tadd (rp s a) (rp s b) = rp s (tadd a b).
  Proof. destruct a, b; reflexivity. Qed.
  Lemma rp_tmul a b : tmul (rp s a) (rp s b) = rp s (tmul a b).
  Proof. destruct a, b; reflexivity. Qed.
  Lemma rp_tscale a b : tscale a (rp s b) = rp s (tscale a b).
  Proof. destruct b; reflexivity. Qed.
  Lemma rp_tadjoint b : tadjoint (rp s b) = rp s (tadjoint b).
  Proof. destruct b; reflexivity. Qed.
  Lemma rp_tinv b : tinv (rp s b) = rp s (tinv b).
  Proof. destruct b; reflexivity. Qed.
  Lemma rp_uniform z : TScalar (fun _ => z) = rp s (TScalar (fun _ => z)).
  Proof. reflexivity. Qed.
  Lemma rp_eigenvalues t p : eigenvalues eps (rp s t) p = eigenvalues eps t (in_cell s p).
  Proof. destruct t; reflexivity. Qed.
  Lemma rp_elements t p : elements (rp s t) p = elements t (in_cell s p).
  Proof. destruct t; reflexivity. Qed.
  Lemma rp_largest t : largest_eigenvalue eps (times r s) (rp s t) = largest_eigenvalue eps s t.
  Proof. unfold largest_eigenvalue. etransitivity; [|exact (rmax_over_repeated (fun p => fold_right Rmax 0%R (map Cmod (eigenvalues eps t p))))]. f_equal. apply functional_extensionality. intros p. rewrite rp_eigenvalues. reflexivity. Qed.
  Lemma rp_gain t : has_gain eps (times r s) (rp s t) = has_gain eps s t.
  Proof.
    unfold has_gain. etransitivity; [|exact (any_over_repeated (fun p => existsb (fun x : C => Modes_Model.Rltb (fst x) (- max_allowed_gain eps)) (eigenvalues eps (antihermitian t) p)))]. f_equal. apply functional_extensionality. intros p. unfold antihermitian.
    rewrite rp_tadjoint, rp_tsub, rp_tscale, rp_eigenvalues. reflexivity.
  Qed.
  Lemma rp_loss t : has_loss eps (times r s) (rp s t) = has_loss eps s t.
  Proof. unfold has_loss. rewrite rp_tscale. apply rp_gain. Qed.
  Lemma rp_effective e xi zeta mu : effective_epsilon (rp s e) (rp s xi) (rp s zeta) (rp s mu) = rp s (effective_epsilon e xi zeta mu).
  Proof. unfold effective_epsilon. rewrite rp_tinv, rp_tmul, !rp_tscale, rp_tmul, rp_tsub. reflexivity. Qed.
  Lemma rp_sigma e a b : sigma_EE eps (times r s) (rp s e) a b = sigma_EE eps s e a b.
  Proof. unfold sigma_EE, delta_tensor. rewrite rp_tadjoint, !rp_tscale, rp_tadd, rp_tmul, (rp_uniform (RtoC _)), rp_tsub, rp_tadd, rp_largest. reflexivity. Qed.
  Lemma rp_allclose t y : allclose (times r s) (rp s t) y = allclose s t y.
  Proof.
    unfold allclose, all_over. f_equal. etransitivity; [|exact (any_over_repeated (fun p => negb (forallb (fun x => close x y) (elements t p))))]. f_equal. apply functional_extensionality. intros p. rewrite rp_elements. reflexivity.
  Qed.
  Lemma in_cell_origin : forall n, (n = length s)%nat -> in_cell s (repeat 0%nat n) = repeat 0%nat n.
  Proof. clear Hr. intros n ->. induction s as [|m t IH]; [reflexivity|]. cbn [length repeat in_cell]. rewrite IH by (inversion Hs; assumption). f_equal. apply Nat.mod_0_l. inversion Hs; lia. Qed.
  Lemma map_zero (l : list nat) : map (fun _ => 0%nat) l = repeat 0%nat (length l).
  Proof. induction l; cbn; [reflexivity|]. f_equal. assumption. Qed.
  Lemma rp_first t : Choice_Model.first (times r s) (rp s t) = Choice_Model.first s t.
  Proof. unfold Choice_Model.first. rewrite rp_elements, !map_zero, (times_length r s (proj1 Hr)), in_cell_origin by reflexivity. reflexivity. Qed.
  Lemma rp_magnetic xi zeta mu : is_magnetic (times r s) (rp s xi) (rp s zeta) (rp s mu) = is_magnetic s xi zeta mu.
  Proof. unfold is_magnetic. rewrite !rp_allclose, rp_first. reflexivity. Qed.
  Lemma rp_choose step k0 e xi zeta mu settled kappa : choose eps (times r s) step k0 (rp s e) (rp s xi) (rp s zeta) (rp s mu) settled kappa = choose eps s step k0 e xi zeta mu settled kappa.
  Proof.
    unfold choose. rewrite rp_magnetic.
    assert (forall d a b, singular_value_sum eps (times r s) d (rp s e) (rp s xi) (rp s zeta) (rp s mu) a b = singular_value_sum eps s d e xi zeta mu a b) as E.
    { intros d a b. unfold singular_value_sum. rewrite rp_effective, rp_sigma. unfold sigma_HH, largest_singularvalue.
      assert (chiHH_beta2 (rp s mu) b = rp s (chiHH_beta2 mu b)) as E1 by (destruct mu; reflexivity). rewrite E1, rp_largest.
      rewrite !rp_tinv, !rp_tmul, !rp_tscale, !rp_tadjoint, !rp_tmul, !rp_largest. reflexivity. }
    rewrite E, rp_effective. unfold transposes, some_gain, some_loss. rewrite !rp_gain, !rp_loss. rewrite rp_tinv, rp_first, rp_sigma. reflexivity.
  Qed.
End Constants.

Lemma repeated_proof eps r g k0 v epsilon xi zeta mu settled kappa S F i : repeats r (rshape g) -> nonempty (rshape g) -> (v = true -> (rndim g <= 3)%nat) -> fits v epsilon -> fits v xi -> fits v zeta -> fits v mu ->
  let s := rshape g in let rp := repeated_tensor s in
  let o := construct eps g k0 v epsilon xi zeta mu settled kappa S in
  let o' := construct eps (repeated_grid r g) k0 v (rp epsilon) (rp xi) (rp zeta) (rp mu) settled kappa (repeated s S) in
  vagree (if v then 3 else 1) (times r s) (Nat.iter i (next_field o') (repeated s F)) (repeated s (Nat.iter i (next_field o) F)).
Proof.
  intros Hr Hs Hn F1 F2 F3 F4 s rp o o'. unfold o, o', rp, s, construct. cbn [rshape rstep repeated_grid]. rewrite (rp_choose eps r (rshape g) Hr Hs), (rp_magnetic r (rshape g) Hr Hs). destruct (choose _ _ _ _ _ _ _ _ _ _) as [alpha beta].
  exact (rp_iter r {| rshape := rshape g; rstep := map (Rmult k0) (rstep g) |} v _ alpha beta epsilon xi zeta mu S Hr Hs Hn (conj F1 (conj F2 (conj F3 F4))) F i).
Qed.
