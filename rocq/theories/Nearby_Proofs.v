(** Proofs about errors in beams: C191. *)
From Coq Require Import Reals List Arith Bool ZArith Lia Lra Psatz FunctionalExtensionality.
Require Import Verif.Base Verif.CSum Verif.Field Verif.Fourier_Model Verif.Fourier_Spec Verif.Fourier_Proofs Verif.Vec_Model Verif.Vec_Spec Verif.Vec_Proofs Verif.Modes_Model Verif.Modes_Proofs.
Require Import Verif.Solver_Convergence Verif.Magnetic_Norm Verif.Robust_Spec Verif.Robust_Proofs.
Require Import Verif.Beam_Model Verif.Beam_Spec Verif.Beam_Proofs Verif.Beam_Media Verif.Beam_Slices Verif.Beam_More Verif.Beam_Vector Verif.Beam_Power Verif.Superpose_Spec Verif.Superpose_Proofs Verif.Nearby_Spec Verif.Cplx.
Import ListNotations.
Local Open Scope R_scope.
Local Open Scope C_scope.

Lemma size_mono n s (F H : vfield) : (vnorm2 n s F <= vnorm2 n s H)%R -> (size n s F <= size n s H)%R.
Proof. intros L. apply sqrt_le_1_alt, L. Qed.
Lemma size_same n s (F H : vfield) : (forall c q, (c < n)%nat -> inside s q -> Cmod (F c q) = Cmod (H c q)) -> size n s F = size n s H.
Proof. intros E. unfold size. f_equal. apply Beam_Power.vnorm2_ext, E. Qed.

Lemma rsum_const n x : rsum n (fun _ => x) = (INR n * x)%R.
Proof. induction n as [|n IH]; [cbn; ring|]. change (rsum (Datatypes.S n) (fun _ => x)) with (rsum n (fun _ => x) + x)%R. rewrite IH, S_INR. ring. Qed.
Lemma rsum_over_const s x : rsum_over s (fun _ => x) = (INR (points s) * x)%R.
Proof. induction s as [|n s IH]; [cbn; ring|]. cbn [rsum_over]. rewrite IH, rsum_const. change (points (n :: s)) with (n * points s)%nat. rewrite mult_INR. ring. Qed.

Section Nearby.
  Variables (b : setup) (k : R).
  Hypotheses (G : section_grid (bgrid b) (baxis b)) (K : (0 < k)%R) (BK : bk b = RtoC k) (Comp : bcomp b = 1%nat \/ bcomp b = 3%nat).
  Notation g := (bgrid b).
  Notation fi := (bfirst b).
  Notation sh := (bshape b).
  Notation sz := (size (bcomp b) sh).
  Definition floor : R := (sqrt (INR (bcomp b * points sh)) / 100000000)%R.
  Definition root : R := sqrt (INR (points sh)).

  Lemma floor_pos : (0 <= floor)%R.
  Proof. unfold floor. apply Rmult_le_pos; [apply sqrt_pos|lra]. Qed.
  Lemma dark_size F : dark b F -> (sz F <= floor)%R.
  Proof.
    intros D. unfold floor, size. replace (sqrt (INR (bcomp b * points sh)) / 100000000)%R with (sqrt (INR (bcomp b * points sh) * (/ 100000000 * / 100000000)))%R.
    - apply sqrt_le_1_alt. unfold vnorm2. eapply Rle_trans; [apply rsum_le with (g := fun _ => (INR (points sh) * (/ 100000000 * / 100000000))%R)|].
      + intros c Hc. unfold norm2. eapply Rle_trans; [apply rsum_over_le with (G := fun _ => (/ 100000000 * / 100000000)%R)|].
        * intros q Hq. specialize (D c q Hc Hq). pose proof (Cmod_ge_0 (F c q)). apply Rmult_le_compat; assumption.
        * rewrite rsum_over_const. lra.
      + rewrite rsum_const. rewrite mult_INR. lra.
    - rewrite sqrt_mult; [|apply pos_INR|lra]. rewrite sqrt_square by lra. reflexivity.
  Qed.
  Lemma gap_read s t : pending s = pending t -> gap b (read_ft b s) (read_ft b t) = sz (fun c q => field_hat s c q - field_hat t c q).
  Proof.
    intros P. apply size_same. intros c q _ _. unfold read_ft, settle. rewrite P. destruct (tiny _); [reflexivity|]. cbn [field_hat].
    replace (field_hat s c q * propagator b (pending t) q - field_hat t c q * propagator b (pending t) q) with ((field_hat s c q - field_hat t c q) * propagator b (pending t) q) by ring.
    rewrite Cmod_mult, (propagator_mod b k) by assumption. ring.
  Qed.

  (** ** A slice, without the threshold *)
  Definition lay (t : sfield) (F : vfield) : vfield := field_hat (set_field b (fun c p => ift sh (fun q => F c q * shift_ft b q) p * t p)).
  Lemma lay_minus t F H : (fun c q => lay t F c q - lay t H c q) = lay t (fun c q => F c q - H c q).
  Proof.
    pose proof (proj1 (set_field_joint b 1 (- (1)) (fun c p => ift sh (fun q => F c q * shift_ft b q) p * t p) (fun c p => ift sh (fun q => H c q * shift_ft b q) p * t p))) as J.
    transitivity (superposed 1 (- (1)) (lay t F) (lay t H)).
    - apply functional_extensionality. intros c. apply functional_extensionality. intros q. unfold superposed. ring.
    - unfold lay. rewrite <- J. f_equal. f_equal. apply functional_extensionality. intros c. apply functional_extensionality. intros p. unfold superposed.
      replace (ift sh (fun q => (F c q - H c q) * shift_ft b q) p) with (ift sh (fun q => F c q * shift_ft b q) p + (- (1)) * ift sh (fun q => H c q * shift_ft b q) p); [ring|].
      rewrite <- ift_scal, <- ift_plus. f_equal. apply functional_extensionality. intros q. ring.
  Qed.
  Lemma lay_power t F : (forall p, inside sh p -> (Cmod (t p) <= 1)%R) -> (sz (lay t F) <= sz F)%R.
  Proof.
    intros T. apply size_mono. unfold lay. set (f := fun c p => ift sh _ p * t p).
    rewrite (Beam_Power.vnorm2_ext (bcomp b) sh _ (project b (fun i => to_spectrum g fi (f i)))) by (intros c q Hc Hq; rewrite (set_field_spectrum b G) by ((destruct Comp; lia) || exact Hq); reflexivity).
    eapply Rle_trans; [apply (project_power b k); assumption|]. apply vnorm2_le. intros c Hc. rewrite (norm2_ext sh _ (transmit g fi t (F c))); [apply (transmit_power_le b G), T|].
    intros q _. unfold transmit. apply to_spectrum_ext. intros p Hp. unfold f. rewrite to_space_ift by assumption. reflexivity.
  Qed.
  Lemma zero_size : sz (fun _ _ => RtoC 0) = 0%R.
  Proof. unfold size. rewrite vnorm2_zero_field. apply sqrt_0. Qed.
  Lemma gap_sym F H : gap b F H = gap b H F.
  Proof. apply size_same. intros c q _ _. rewrite <- Cmod_opp. f_equal. ring. Qed.
  Lemma near_dark F H : dark b H -> (sz F <= gap b F H + floor)%R.
  Proof.
    intros D. pose proof (size_split (bcomp b) sh F H) as L. pose proof (dark_size H D). unfold gap. lra.
  Qed.
  Lemma interact_hat s d n : uniform b n = false -> extended b = true ->
    field_hat (interact b s d n) = if negligible b (read_ft b s) then lay (fun p => cexp (Ci * bk b * excess b (n p) * RtoC d)) (fun _ _ => 0) else lay (fun p => cexp (Ci * bk b * excess b (n p) * RtoC d)) (read_ft b s).
  Proof.
    intros U E. unfold interact. rewrite U. unfold lay. destruct (negligible b (read_ft b s)) eqn:N; f_equal; f_equal; apply functional_extensionality; intros c; apply functional_extensionality; intros p; unfold read_field; rewrite E, N; [|reflexivity].
    replace (fun q => 0 * shift_ft b q) with (fun q => 0 * (0 * shift_ft b q)) by (apply functional_extensionality; intros; ring). rewrite ift_scal. ring.
  Qed.
  Lemma negligible_dark s : negligible b (read_ft b s) = true <-> dark b (read_ft b s).
  Proof. rewrite negligible_spec. reflexivity. Qed.
  Lemma interact_gap s t d n : pending s = pending t -> (forall p, inside sh p -> (0 <= d * snd (n p / bn b)%C)%R) ->
    pending (interact b s d n) = pending (interact b t d n) /\
    (sz (fun c q => field_hat (interact b s d n) c q - field_hat (interact b t d n) c q)%C <= sz (fun c q => field_hat s c q - field_hat t c q)%C + floor)%R /\
    (uniform b n = true -> (sz (fun c q => field_hat (interact b s d n) c q - field_hat (interact b t d n) c q)%C <= sz (fun c q => field_hat s c q - field_hat t c q)%C)%R).
  Proof.
    intros P A. pose proof floor_pos as FP. destruct (uniform b n) eqn:U.
    - unfold interact. rewrite U. destruct (tiny _); [split; [exact P|split; [lra|intros _; lra]]|]. cbn [field_hat pending]. split; [exact P|]. set (t0 := cexp _).
      assert (Cmod t0 <= 1)%R as T by (apply (excess_le b k); [assumption..|apply A, (shape_inside b G)]).
      assert (sz (fun c q => (field_hat s c q * t0 - field_hat t c q * t0)%C) <= sz (fun c q => field_hat s c q - field_hat t c q)%C)%R as L; [|split; [lra|intros _; exact L]].
      apply size_mono. apply vnorm2_le. intros c _. apply rsum_over_le. intros q _.
      replace (field_hat s c q * t0 - field_hat t c q * t0) with ((field_hat s c q - field_hat t c q) * t0) by ring. rewrite Cmod_mult. pose proof (Cmod_ge_0 t0). pose proof (Cmod_ge_0 (field_hat s c q - field_hat t c q)).
      set (x := Cmod (field_hat s c q - field_hat t c q)) in *. set (y := Cmod t0) in *. assert (x * y <= x)%R by (apply scaled_le; lra). apply Rmult_le_compat; nra.
    - destruct (extended b) eqn:E; [|rewrite (uniform_point b G n E) in U; discriminate U]. split; [unfold interact; rewrite U; unfold set_field; rewrite E; reflexivity|]. split; [|discriminate].
      rewrite !interact_hat by assumption. set (t0 := fun p => cexp _). assert (forall p, inside sh p -> (Cmod (t0 p) <= 1)%R) as T by (intros p Hp; apply (excess_le b k); [assumption..|apply A, Hp]).
      rewrite <- (gap_read s t P).
      assert (forall F H, (sz (fun c q => lay t0 F c q - lay t0 H c q)%C <= gap b F H)%R) as L by (intros F H; rewrite lay_minus; apply lay_power, T).
      assert (forall F H, dark b H -> (gap b F (fun _ _ => 0) <= gap b F H + floor)%R) as Z.
      { intros F H D. eapply Rle_trans; [|apply near_dark, D]. right. apply size_same. intros c q _ _. f_equal. ring. }
      destruct (negligible b (read_ft b s)) eqn:N1, (negligible b (read_ft b t)) eqn:N2.
      + eapply Rle_trans; [apply L|]. unfold gap at 1. rewrite (size_same _ _ _ (fun _ _ => RtoC 0)) by (intros; f_equal; ring). rewrite zero_size. pose proof (size_nonneg (bcomp b) sh (fun c p => read_ft b s c p - read_ft b t c p)). unfold gap. lra.
      + eapply Rle_trans; [apply L|]. rewrite gap_sym, (gap_sym (read_ft b s)). apply Z, negligible_dark, N1.
      + eapply Rle_trans; [apply L|]. apply Z, negligible_dark, N2.
      + eapply Rle_trans; [apply L|]. lra.
  Qed.

  (** ** Histories *)
  Lemma act_gap s t a : pending s = pending t -> passive sh (bn b) a -> pending (act b s a) = pending (act b t a) /\
    (gap b (read_ft b (act b s a)) (read_ft b (act b t a)) <= gap b (read_ft b s) (read_ft b t) + INR (slices [a]) * floor)%R /\
    (flat_medium sh a -> (gap b (read_ft b (act b s a)) (read_ft b (act b t a)) <= gap b (read_ft b s) (read_ft b t))%R).
  Proof.
    intros P A.
    assert (pending (act b s a) = pending (act b t a) /\
      (sz (fun c q => field_hat (act b s a) c q - field_hat (act b t a) c q)%C <= sz (fun c q => field_hat s c q - field_hat t c q)%C + INR (slices [a]) * floor)%R /\
      (flat_medium sh a -> (sz (fun c q => field_hat (act b s a) c q - field_hat (act b t a) c q)%C <= sz (fun c q => field_hat s c q - field_hat t c q)%C)%R)) as (E & L1 & L2);
      [|split; [exact E|]; rewrite !gap_read by assumption; split; assumption].
    assert (pending (settle b s) = pending (settle b t) /\ (sz (fun c q => field_hat (settle b s) c q - field_hat (settle b t) c q)%C = sz (fun c q => field_hat s c q - field_hat t c q)%C)) as [Se1 Se2].
    { split; [|rewrite <- (gap_read s t P); reflexivity]. unfold settle. rewrite P. destruct (tiny _); [exact P|reflexivity]. }
    destruct a as [d [n|]| | | |]; cbn [passive] in A; try contradiction; cbn [act].
    - change (INR (slices [Propagate d (Some n)])) with 1%R. rewrite Rmult_1_l.
      unfold propagate. set (s1 := if Rltb d 0 then move s d else s). set (t1 := if Rltb d 0 then move t d else t).
      assert (forall x, field_hat (if Rltb 0 d then move x d else x) = field_hat x) as -> by (intros x; destruct (Rltb 0 d); reflexivity).
      assert (forall x, field_hat (if Rltb 0 d then move x d else x) = field_hat x) as -> by (intros x; destruct (Rltb 0 d); reflexivity).
      assert (field_hat s = field_hat s1) as -> by (unfold s1; destruct (Rltb d 0); reflexivity). assert (field_hat t = field_hat t1) as -> by (unfold t1; destruct (Rltb d 0); reflexivity).
      assert (pending s1 = pending t1) as P1 by (unfold s1, t1; destruct (Rltb d 0); cbn [move pending]; rewrite P; reflexivity).
      destruct (interact_gap s1 t1 d n P1 A) as (E & L1 & L2). split; [destruct (Rltb 0 d); cbn [move pending]; rewrite E; reflexivity|]. split; [exact L1|]. intros Fl. apply L2. exact (flat_uniform b d n Fl).
    - change (INR (slices [Propagate d None])) with 0%R. rewrite !propagate_none. destruct (Req_EM_T d 0); cbn [move pending field_hat]; (split; [rewrite P; reflexivity|split; [lra|intros _; lra]]).
    - change (INR (slices [ReadFt])) with 0%R. split; [exact Se1|]. split; [|intros _]; lra.
    - change (INR (slices [ReadField])) with 0%R. split; [exact Se1|]. split; [|intros _]; lra.
  Qed.
  Lemma slices_cons a l : INR (slices (a :: l)) = (INR (slices [a]) + INR (slices l))%R.
  Proof. rewrite <- plus_INR. f_equal. destruct a as [d [n|]| | | |]; reflexivity. Qed.
  Lemma run_gap l : Forall (passive sh (bn b)) l -> forall s t, pending s = pending t -> pending (run b s l) = pending (run b t l) /\
    (gap b (read_ft b (run b s l)) (read_ft b (run b t l)) <= gap b (read_ft b s) (read_ft b t) + INR (slices l) * floor)%R /\
    (Forall (flat_medium sh) l -> (gap b (read_ft b (run b s l)) (read_ft b (run b t l)) <= gap b (read_ft b s) (read_ft b t))%R).
  Proof.
    intros H. induction H as [|a l A H IH]; intros s t P; [split; [exact P|]; cbn; split; [lra|intros _; lra]|].
    destruct (act_gap s t a P A) as (P' & L1 & L2). destruct (IH _ _ P') as (P'' & L1' & L2'). unfold run in *. cbn [fold_left]. rewrite slices_cons. split; [exact P''|]. split; [nra|].
    intros Fl. inversion Fl as [|? ? F1 F2]; subst. specialize (L2 F1). specialize (L2' F2). lra.
  Qed.
  Lemma gap_triangle F H L : (gap b F L <= gap b F H + gap b H L)%R.
  Proof. apply size_triangle. Qed.
  Lemma noisy_gap e l : Forall (passive sh (bn b)) l -> forall s0 s t, pending s = pending s0 -> noisy b e l s t ->
    pending t = pending (run b s0 l) /\ (gap b (read_ft b t) (read_ft b (run b s0 l)) <= gap b (read_ft b s) (read_ft b s0) + INR (length l) * e + INR (slices l) * floor)%R.
  Proof.
    intros H. induction H as [|a l A H IH]; intros s0 s t P N; cbn [noisy] in N; [subst t; split; [exact P|]; cbn; lra|].
    destruct N as (s' & P' & E & N). destruct (act_gap s s0 a P A) as (P1 & L1 & _). destruct (IH (act b s0 a) s' t (eq_trans P' P1) N) as (P2 & L2).
    unfold run in *. cbn [fold_left]. split; [exact P2|]. rewrite slices_cons. cbn [length]. rewrite S_INR. pose proof (gap_triangle (read_ft b s') (read_ft b (act b s a)) (read_ft b (act b s0 a))). lra.
  Qed.

  (** ** Fields *)
  Lemma root_pos : (0 < root)%R.
  Proof. unfold root. apply sqrt_lt_R0, lt_0_INR, points_pos, G. Qed.
  Lemma floor_root : floor = (root * (sqrt (INR (bcomp b)) / 100000000))%R.
  Proof. unfold floor, root. rewrite mult_INR, sqrt_mult by apply pos_INR. field. Qed.
  Lemma root_size (F f : vfield) : vnorm2 (bcomp b) sh F = (INR (points sh) * vnorm2 (bcomp b) sh f)%R -> sz F = (root * sz f)%R.
  Proof. intros E. unfold size, root. rewrite E. rewrite sqrt_mult; [reflexivity|apply pos_INR|apply Beam_Power.vnorm2_nonneg]. Qed.
  Definition spatial (F : vfield) : vfield := fun c p => if extended b then ift sh (fun q => F c q * shift_ft b q) p else F c p.
  Lemma spatial_size F : sz F = (root * sz (spatial F))%R.
  Proof.
    apply root_size. unfold vnorm2. rewrite <- rsum_scal. apply rsum_ext. intros c _. rewrite (space_power b G). f_equal. apply norm2_ext. intros p Hp. unfold spatial.
    destruct (extended b) eqn:E; [symmetry; apply to_space_ift; assumption|apply point_space; assumption].
  Qed.
  Lemma spatial_minus F H c p : spatial F c p - spatial H c p = spatial (fun i q => F i q - H i q) c p.
  Proof.
    unfold spatial. destruct (extended b); [|reflexivity]. replace (fun q => (F c q - H c q) * shift_ft b q) with (fun q => F c q * shift_ft b q + - (1) * (H c q * shift_ft b q)) by (apply functional_extensionality; intros; ring). rewrite ift_plus, ift_scal. ring.
  Qed.
  Lemma read_spatial s c p : read_field b s c p = if andb (extended b) (negligible b (read_ft b s)) then 0 else spatial (read_ft b s) c p.
  Proof. unfold read_field, spatial. destruct (extended b); cbn [andb]; [|reflexivity]. destruct (negligible _ _); reflexivity. Qed.
  Lemma field_gap s t : (root * gap b (read_field b s) (read_field b t) <= gap b (read_ft b s) (read_ft b t) + floor)%R.
  Proof.
    pose proof floor_pos as FP. pose proof root_pos as RP.
    assert (forall F H, (root * gap b (spatial F) (spatial H))%R = gap b F H) as Q.
    { intros F H. unfold gap. rewrite (spatial_size (fun c p => F c p - H c p)). f_equal. apply size_same. intros c q _ _. rewrite spatial_minus. reflexivity. }
    assert (forall F H, dark b H -> (root * sz (spatial F) <= gap b F H + floor)%R) as Z by (intros F H D; rewrite <- spatial_size; apply near_dark, D).
    assert (0 <= gap b (read_ft b s) (read_ft b t))%R as NN by apply size_nonneg.
    destruct (andb (extended b) (negligible b (read_ft b s))) eqn:N1, (andb (extended b) (negligible b (read_ft b t))) eqn:N2.
    - unfold gap at 1. rewrite (size_same _ _ _ (fun _ _ => RtoC 0)) by (intros; rewrite !read_spatial, N1, N2; f_equal; ring). rewrite zero_size. lra.
    - rewrite (gap_sym (read_ft b s)). unfold gap at 1. rewrite (size_same _ _ _ (spatial (read_ft b t))) by (intros; rewrite !read_spatial, N1, N2, <- Cmod_opp; f_equal; ring). apply Z, negligible_dark. apply andb_prop in N1. apply N1.
    - unfold gap at 1. rewrite (size_same _ _ _ (spatial (read_ft b s))) by (intros; rewrite !read_spatial, N1, N2; f_equal; ring). apply Z, negligible_dark. apply andb_prop in N2. apply N2.
    - rewrite <- (Q (read_ft b s) (read_ft b t)). unfold gap at 1. rewrite (size_same _ _ _ (fun c p => spatial (read_ft b s) c p - spatial (read_ft b t) c p)) by (intros; rewrite !read_spatial, N1, N2; reflexivity). unfold gap. lra.
  Qed.
  Lemma set_ft_gap F H : (gap b (read_ft b (set_ft b F)) (read_ft b (set_ft b H)) <= gap b F H)%R.
  Proof.
    rewrite gap_read by reflexivity. pose proof (proj1 (set_ft_joint b 1 (- (1)) F H)) as J.
    rewrite (size_same _ _ _ (project b (superposed 1 (- (1)) F H))).
    - eapply Rle_trans; [apply size_mono, (project_power b k); assumption|]. right. apply size_same. intros c q _ _. unfold superposed. f_equal. ring.
    - intros c q _ _. change (project b (superposed 1 (- (1)) F H)) with (field_hat (set_ft b (superposed 1 (- (1)) F H))). rewrite J. unfold superposed. f_equal. ring.
  Qed.
  Lemma set_field_gap f h : (gap b (read_ft b (set_field b f)) (read_ft b (set_field b h)) <= root * gap b f h)%R /\ pending (set_field b f) = pending (set_field b h).
  Proof.
    assert (pending (set_field b f) = pending (set_field b h)) as P by (unfold set_field; destruct (extended b); reflexivity). split; [|exact P]. rewrite gap_read by exact P.
    pose proof (proj1 (set_field_joint b 1 (- (1)) f h)) as J.
    rewrite (size_same _ _ _ (project b (fun i => to_spectrum g fi (superposed 1 (- (1)) f h i)))).
    - eapply Rle_trans; [apply size_mono, (project_power b k); assumption|]. right. unfold gap. apply root_size. unfold vnorm2. rewrite <- rsum_scal. apply rsum_ext. intros c _. rewrite (spectrum_power b G). f_equal. apply rsum_over_ext. intros p _.
      unfold superposed. replace (1 * f c p + - (1) * h c p) with (f c p - h c p) by ring. reflexivity.
    - intros c q Hc Hq. rewrite <- (set_field_spectrum b G) by ((destruct Comp; lia) || exact Hq). rewrite J. unfold superposed. f_equal. ring.
  Qed.
  Lemma fields_close f h l s t : Forall (passive sh (bn b)) l ->
    (gap b (read_field b (run b s (SetField f :: l))) (read_field b (run b t (SetField h :: l))) <= gap b f h + INR (slices l + 1) * (sqrt (INR (bcomp b)) / 100000000))%R.
  Proof.
    intros H. pose proof root_pos as RP. apply Rmult_le_reg_l with (1 := RP). eapply Rle_trans; [apply field_gap|]. destruct (set_field_gap f h) as [L P].
    pose proof (proj1 (proj2 (run_gap l H (set_field b f) (set_field b h) P))) as R. unfold run in *. cbn [fold_left act]. rewrite plus_INR. cbn [INR]. rewrite floor_root in *.
    set (x := (sqrt (INR (bcomp b)) / 100000000)%R) in *. nra.
  Qed.
  Lemma spectra_close F H l s t : Forall (passive sh (bn b)) l ->
    (gap b (read_ft b (run b s (SetFt F :: l))) (read_ft b (run b t (SetFt H :: l))) <= gap b F H + INR (slices l) * (sqrt (INR (bcomp b * points sh)) / 100000000))%R /\
    (Forall (flat_medium sh) l -> (gap b (read_ft b (run b s (SetFt F :: l))) (read_ft b (run b t (SetFt H :: l))) <= gap b F H)%R).
  Proof.
    intros A. pose proof (set_ft_gap F H) as L. destruct (run_gap l A (set_ft b F) (set_ft b H) eq_refl) as (_ & L1 & L2). unfold run in *. cbn [fold_left act]. fold floor. split; [|intros Fl; specialize (L2 Fl)]; lra.
  Qed.
  Lemma noise_adds e l s t : Forall (passive sh (bn b)) l -> noisy b e l s t ->
    (gap b (read_ft b t) (read_ft b (run b s l)) <= INR (length l) * e + INR (slices l) * (sqrt (INR (bcomp b * points sh)) / 100000000))%R.
  Proof.
    intros A N. destruct (noisy_gap e l A s s t eq_refl N) as [_ L]. fold floor. enough (gap b (read_ft b s) (read_ft b s) = 0)%R by lra.
    unfold gap. rewrite (size_same _ _ _ (fun _ _ => RtoC 0)) by (intros; f_equal; ring). apply zero_size.
  Qed.
End Nearby.
