(** Proofs about what a beam neglects: C194. *)
From Coq Require Import Reals List Arith Bool ZArith Lia Lra Psatz FunctionalExtensionality.
Require Import Verif.Base Verif.CSum Verif.Field Verif.Fourier_Model Verif.Fourier_Spec Verif.Fourier_Proofs Verif.Vec_Model Verif.Vec_Spec Verif.Vec_Proofs Verif.Modes_Model Verif.Modes_Proofs.
Require Import Verif.Solver_Convergence Verif.Magnetic_Norm Verif.Robust_Spec Verif.Robust_Proofs.
Require Import Verif.Beam_Model Verif.Beam_Spec Verif.Beam_Proofs Verif.Beam_Media Verif.Beam_Slices Verif.Beam_More Verif.Beam_Vector Verif.Beam_Power Verif.Superpose_Spec Verif.Superpose_Proofs Verif.Nearby_Spec Verif.Nearby_Proofs Verif.Neglect_Spec Verif.Cplx.
Import ListNotations.
Local Open Scope R_scope.
Local Open Scope C_scope.

(** ** Exponentials *)
Lemma exp_close x y : (x <= 0)%R -> (y <= 0)%R -> (Rabs (exp x - exp y) <= Rabs (x - y))%R.
Proof.
  assert (forall x y, (x <= y)%R -> (y <= 0)%R -> (0 <= exp y - exp x <= y - x)%R) as H.
  { intros u v L V. replace u with (v + (u - v))%R at 1 2 by ring. rewrite exp_plus. pose proof (exp_ineq1_le (u - v)) as I. pose proof (exp_pos v) as P.
    assert (exp v <= 1)%R as E1 by (rewrite <- exp_0; destruct V as [V| ->]; [left; apply exp_increasing, V|right; reflexivity]).
    assert (exp (u - v) <= 1)%R as E2 by (rewrite <- exp_0; destruct L as [L| ->]; [left; apply exp_increasing; lra|right; f_equal; ring]). nra. }
  intros X Y. destruct (Rle_dec x y) as [L|L].
  - destruct (H x y L Y). rewrite (Rabs_left1 (exp x - exp y)), (Rabs_left1 (x - y)); lra.
  - destruct (H y x ltac:(lra) X). rewrite (Rabs_pos_eq (exp x - exp y)), (Rabs_pos_eq (x - y)); lra.
Qed.
Lemma cos_close t : (1 - cos t <= t * t / 2)%R.
Proof.
  replace t with (2 * (t / 2))%R at 1 by field. rewrite cos_2a_sin. assert (Rabs (sin (t / 2)) <= Rabs (t / 2))%R as S.
  { assert (forall u, (0 <= u)%R -> (Rabs (sin u) <= u)%R) as H.
    { intros u Hu. destruct Hu as [Hu|<-]; [|rewrite sin_0, Rabs_R0; lra]. pose proof (SIN_bound u). destruct (Rle_dec u 1) as [L|L].
      - pose proof (sin_lt_x u Hu). assert (0 <= sin u)%R by (apply sin_ge_0; [lra|]; pose proof PI_RGT_0; pose proof PI2_3_2; lra). rewrite Rabs_pos_eq; lra.
      - apply Rabs_le. lra. }
    destruct (Rle_dec 0 (t / 2)) as [L|L]; [rewrite (Rabs_pos_eq (t / 2)) by lra; apply H, L|]. rewrite <- Rabs_Ropp, <- sin_neg, (Rabs_left1 (t / 2)) by lra. apply H. lra. }
  assert (sin (t / 2) * sin (t / 2) <= t / 2 * (t / 2))%R; [|nra]. change (Rsqr (sin (t / 2)) <= Rsqr (t / 2))%R. apply Rsqr_le_abs_1, S.
Qed.
Lemma cexp_close (x y : C) : (fst x <= 0)%R -> (fst y <= 0)%R -> (Cmod (cexp x - cexp y)%C <= Cmod (x - y)%C)%R.
Proof.
  intros X Y. unfold Cmod at 1 2. apply sqrt_le_1_alt. destruct x as [x1 x2], y as [y1 y2]. cbn [fst snd] in X, Y. unfold cexp, cis, RtoC, Cmult, Cminus, Cplus, Copp. cbn [fst snd].
  pose proof (exp_close x1 y1 X Y) as E. assert ((exp x1 - exp y1) * (exp x1 - exp y1) <= (x1 - y1) * (x1 - y1))%R as E2 by (change (Rsqr (exp x1 - exp y1) <= Rsqr (x1 - y1))%R; apply Rsqr_le_abs_1, E).
  pose proof (cos_close (x2 - y2)) as Cs. rewrite cos_minus in Cs. pose proof (sin2_cos2 x2) as S1. pose proof (sin2_cos2 y2) as S2. unfold Rsqr in S1, S2.
  assert (0 < exp x1 <= 1)%R as P1 by (split; [apply exp_pos|rewrite <- exp_0; destruct X as [X| ->]; [left; apply exp_increasing, X|right; reflexivity]]).
  assert (0 < exp y1 <= 1)%R as P2 by (split; [apply exp_pos|rewrite <- exp_0; destruct Y as [Y| ->]; [left; apply exp_increasing, Y|right; reflexivity]]).
  set (a := exp x1) in *. set (c := exp y1) in *. set (c1 := cos x2) in *. set (s1 := sin x2) in *. set (c2 := cos y2) in *. set (s2 := sin y2) in *.
  match goal with |- (?L <= ?M)%R => replace L with ((a - c) * (a - c) + 2 * (a * c) * (1 - (c1 * c2 + s1 * s2)))%R; [replace M with ((x1 - y1) * (x1 - y1) + (x2 - y2) * (x2 - y2))%R by ring|] end.
  - assert (0 <= 1 - (c1 * c2 + s1 * s2))%R as Q by (pose proof (Rle_0_sqr (c1 - c2)); pose proof (Rle_0_sqr (s1 - s2)); unfold Rsqr in *; nra). assert (0 < a * c <= 1)%R by nra. nra.
  - transitivity (a * a * (s1 * s1 + c1 * c1) + c * c * (s2 * s2 + c2 * c2) - 2 * (a * c) * (c1 * c2 + s1 * s2))%R; [rewrite S1, S2|]; ring.
Qed.
Lemma cis_close x : (Cmod (cis x - 1)%C <= Rabs x)%R.
Proof.
  pose proof (cexp_close (0, x)%R 0 ltac:(cbn; lra) ltac:(cbn; lra)) as H. rewrite cexp_0 in H. replace (cexp (0, x)%R) with (cis x) in H.
  - eapply Rle_trans; [exact H|]. right. unfold Cmod, Cminus, Cplus, Copp, RtoC. cbn. rewrite <- sqrt_Rsqr_abs. f_equal. unfold Rsqr. ring.
  - unfold cexp. cbn [fst snd]. rewrite exp_0. ring.
Qed.

Section Neglect.
  Variables (b : setup) (k : R).
  Hypotheses (G : section_grid (bgrid b) (baxis b)) (K : (0 < k)%R) (BK : bk b = RtoC k) (Comp : bcomp b = 1%nat \/ bcomp b = 3%nat) (Bn : bn b <> 0).
  Notation g := (bgrid b).
  Notation axis := (baxis b).
  Notation fi := (bfirst b).
  Notation sh := (bshape b).
  Notation sz := (size (bcomp b) sh).
  Notation lay := (lay b).
  Notation floor := (floor b).

  (** ** Reading *)
  Lemma axial_le q : (axial g axis k q <= k)%R.
  Proof.
    unfold axial. apply Rle_trans with (sqrt (k * k)); [|right; apply sqrt_square; lra]. apply sqrt_le_1_alt. pose proof (kt2_nonneg b q) as N. apply Rmax_lub; nra.
  Qed.
  Lemma near_wave s : (gap b (read_ft b s) (wave b s) <= k * / 100000000 * sz (field_hat s))%R.
  Proof.
    destruct (read_near b s) as (d & D & _ & _ & E). unfold gap. apply vnorm_le; [nra|]. unfold vnorm2. rewrite <- rsum_scal. apply rsum_le. intros c _. unfold norm2. rewrite <- rsum_over_scal. apply rsum_over_le. intros q _.
    assert (Cmod (read_ft b s c q - wave b s c q)%C <= k * / 100000000 * Cmod (field_hat s c q))%R as L.
    { rewrite E. replace (wave b s c q * propagator b (- d) q - wave b s c q) with (wave b s c q * (propagator b (- d) q - 1)) by ring. rewrite Cmod_mult. unfold wave. rewrite Cmod_mult, (propagator_mod b k) by assumption. rewrite (propagator_real b k) by assumption.
      pose proof (cis_close (- d * axial g axis k q)) as Q. rewrite Rabs_mult, Rabs_Ropp in Q. pose proof (axial_le q) as A. pose proof (axial_nonneg b k q) as A0. rewrite (Rabs_pos_eq (axial g axis k q)) in Q by exact A0. pose proof (Cmod_ge_0 (field_hat s c q)) as M. pose proof (Rabs_pos d).
      assert (Cmod (cis (- d * axial g axis k q) - 1)%C <= k * / 100000000)%R as W by nra. pose proof (Cmod_ge_0 (cis (- d * axial g axis k q) - 1)). nra. }
    pose proof (Cmod_ge_0 (read_ft b s c q - wave b s c q)). replace (k * / 100000000 * (k * / 100000000) * (Cmod (field_hat s c q) * Cmod (field_hat s c q)))%R with (k * / 100000000 * Cmod (field_hat s c q) * (k * / 100000000 * Cmod (field_hat s c q)))%R by ring. apply Rmult_le_compat; assumption.
  Qed.

  (** ** One slice *)
  Lemma lay_project t F c q : (c < 3)%nat -> inside sh q -> lay t F c q = project b (fun i => transmit g fi t (F i)) c q.
  Proof.
    intros Hc Hq. unfold Nearby_Proofs.lay. rewrite (set_field_spectrum b G) by assumption. apply project_ext; [exact Hc|]. intros i _. unfold transmit. apply to_spectrum_ext. intros p Hp. rewrite to_space_ift by assumption. reflexivity.
  Qed.
  Lemma lay_bound t e F : (0 <= e)%R -> (forall p, inside sh p -> (Cmod (t p) <= e)%R) -> (sz (lay t F) <= e * sz F)%R.
  Proof.
    intros E0 T. apply vnorm_le; [exact E0|]. rewrite (Beam_Power.vnorm2_ext (bcomp b) sh _ (project b (fun i => transmit g fi t (F i)))) by (intros c q Hc Hq; rewrite lay_project by ((destruct Comp; lia) || exact Hq); reflexivity).
    eapply Rle_trans; [apply (project_power b k); assumption|]. unfold vnorm2. rewrite <- rsum_scal. apply rsum_le. intros c _. unfold transmit. rewrite (spectrum_power b G), (space_power b G (F c)). rewrite <- Rmult_assoc, (Rmult_comm (e * e)), Rmult_assoc. apply Rmult_le_compat_l; [apply pos_INR|].
    unfold norm2. rewrite <- rsum_over_scal. apply rsum_over_le. intros p Hp. rewrite Cmod_mult. specialize (T p Hp). pose proof (Cmod_ge_0 (t p)). pose proof (Cmod_ge_0 (to_space g fi (F c) p)). set (x := Cmod (to_space g fi (F c) p)) in *. set (y := Cmod (t p)) in *.
    replace (x * y * (x * y))%R with (x * x * (y * y))%R by ring. assert (y * y <= e * e)%R by nra. assert (0 <= x * x)%R by nra. nra.
  Qed.
  Lemma lay_minus_t t u F : (fun c q => lay t F c q - lay u F c q) = lay (fun p => t p - u p) F.
  Proof.
    pose proof (proj1 (set_field_joint b 1 (- (1)) (fun c p => ift sh (fun q => F c q * shift_ft b q) p * t p) (fun c p => ift sh (fun q => F c q * shift_ft b q) p * u p))) as J.
    transitivity (superposed 1 (- (1)) (lay t F) (lay u F)).
    - apply functional_extensionality. intros c. apply functional_extensionality. intros q. unfold superposed. ring.
    - unfold Nearby_Proofs.lay. rewrite <- J. f_equal. f_equal. apply functional_extensionality. intros c. apply functional_extensionality. intros p. unfold superposed. ring.
  Qed.
  Definition kept (F : vfield) : Prop := forall c q, (c < bcomp b)%nat -> inside sh q -> project b F c q = F c q.
  Lemma lay_flat z F c q : kept F -> (c < bcomp b)%nat -> inside sh q -> lay (fun _ => z) F c q = z * F c q.
  Proof.
    intros T Hc Hq. assert (c < 3)%nat as H3 by (destruct Comp; lia). rewrite lay_project by assumption. rewrite <- (T c q Hc Hq).
    assert (forall i, transmit g fi (fun _ => z) (F i) q = z * F i q) as E.
    { intros i. unfold transmit. rewrite (to_spectrum_ext b _ (fun p => z * to_space g fi (F i) p)) by (intros p _; ring). rewrite to_spectrum_scal. f_equal. exact (spectrum_space b G (F i) q Hq). }
    rewrite (project_ext b _ (fun i q => z * F i q)) by (exact H3 || (intros; apply E)). unfold project. destruct (1 <? bcomp b)%nat; [|reflexivity]. rewrite (csum_ext 3 _ (fun i => z * (k_dir b i q * F i q))) by (intros; ring). rewrite csum_scal. ring.
  Qed.
  Lemma kept_transverse F : (bcomp b = 3%nat -> transverse g axis k F) -> kept F.
  Proof.
    intros T c q Hc _. destruct Comp as [C1|C3]; [rewrite (project_scalar b C1); reflexivity|]. rewrite (project_part b k G K BK C3) by lia. apply part_transverse, T, C3.
  Qed.
  Lemma exact_lay d n F c q : (c < bcomp b)%nat -> inside sh q -> exact_slice b k (d, Some n) F c q = lay (fun p => cexp (Ci * bk b * excess b (n p) * RtoC d)) F c q * propagator b d q.
  Proof.
    intros Hc Hq. assert (c < 3)%nat as H3 by (destruct Comp; lia). rewrite lay_project, (propagator_real b k) by assumption.
    assert (transmittance k (bn b) d n = fun p => cexp (Ci * bk b * excess b (n p) * RtoC d)) as <- by (apply functional_extensionality; intros p; rewrite BK; reflexivity).
    unfold exact_slice. cbn [fst snd]. destruct Comp as [C1|C3].
    - rewrite C1. cbn [Nat.eqb]. rewrite (project_scalar b C1). reflexivity.
    - rewrite C3. cbn [Nat.eqb]. rewrite (project_part b k G K BK C3) by exact H3. reflexivity.
  Qed.
  Lemma exact_none d F c q : exact_slice b k (d, None) F c q = F c q * propagator b d q.
  Proof. rewrite (propagator_real b k) by assumption. unfold exact_slice. cbn [fst snd]. destruct (bcomp b =? 1)%nat; reflexivity. Qed.
  Lemma gap_turned d F H F' H' : (forall c q, (c < bcomp b)%nat -> inside sh q -> F c q = F' c q * propagator b d q) -> (forall c q, (c < bcomp b)%nat -> inside sh q -> H c q = H' c q * propagator b d q) -> gap b F H = gap b F' H'.
  Proof.
    intros EF EH. apply size_same. intros c q Hc Hq. rewrite (EF c q Hc Hq), (EH c q Hc Hq). replace (F' c q * propagator b d q - H' c q * propagator b d q) with ((F' c q - H' c q) * propagator b d q) by ring. rewrite Cmod_mult, (propagator_mod b k) by assumption. ring.
  Qed.
  Lemma excess_exponent d x : fst (Ci * bk b * excess b x * RtoC d) = (- (k * (d * snd (x / bn b)%C)))%R.
  Proof. rewrite BK. unfold excess. set (z := x / bn b). destruct z as [x' y]. unfold Ci, RtoC, Cmult, Cminus, Cplus, Copp. cbn. ring. Qed.
  Lemma phase_close d x y : (0 < d)%R -> (0 <= snd (x / bn b)%C)%R -> (0 <= snd (y / bn b)%C)%R ->
    (Cmod (cexp (Ci * bk b * excess b x * RtoC d) - cexp (Ci * bk b * excess b y * RtoC d))%C <= k * d * (Cmod (x - y)%C / Cmod (bn b)))%R.
  Proof.
    intros D X Y. eapply Rle_trans; [apply cexp_close; rewrite excess_exponent; assert (0 < k * d)%R by nra; nra|]. right.
    replace (Ci * bk b * excess b x * RtoC d - Ci * bk b * excess b y * RtoC d) with (Ci * RtoC (k * d) * ((x - y) / bn b)) by (rewrite BK, RtoC_mult; unfold excess; field; exact Bn).
    rewrite !Cmod_mult, Cmod_div by exact Bn. rewrite Cmod_R, Rabs_pos_eq by nra. replace (Cmod Ci) with 1%R; [ring|]. unfold Cmod, Ci. cbn. replace (_ + _)%R with 1%R by ring. symmetry. apply sqrt_1.
  Qed.
  Lemma one_close d x : (0 < d)%R -> (0 <= snd (x / bn b)%C)%R -> (Cmod (cexp (Ci * bk b * excess b x * RtoC d) - 1)%C <= k * d * Cmod (excess b x))%R.
  Proof.
    intros D X. rewrite <- cexp_0. eapply Rle_trans; [apply cexp_close; [rewrite excess_exponent; assert (0 < k * d)%R by nra; nra|cbn; lra]|]. right.
    replace (Ci * bk b * excess b x * RtoC d - 0) with (Ci * RtoC (k * d) * excess b x) by (rewrite BK, RtoC_mult; ring). rewrite !Cmod_mult, Cmod_R, Rabs_pos_eq by nra. replace (Cmod Ci) with 1%R; [ring|]. unfold Cmod, Ci. cbn. replace (_ + _)%R with 1%R by ring. symmetry. apply sqrt_1.
  Qed.
  Lemma wave_size s : sz (wave b s) = sz (field_hat s).
  Proof. apply size_same. intros c q _ _. unfold wave. rewrite Cmod_mult, (propagator_mod b k) by assumption. ring. Qed.
  Lemma uniform_spec n : uniform b n = true -> forall p, inside sh p -> (Cmod (n p - n origin)%C <= / 100000000 + / 100000 * Cmod (n origin))%R.
  Proof. intros U p Hp. unfold uniform in U. rewrite forallb_forall in U. specialize (U p (proj2 (indices_inside _ _) Hp)). unfold Rleb in U. destruct (Rle_dec _ _) as [L|]; [exact L|discriminate]. Qed.
  Lemma tiny_le x : tiny x = true -> (x <= / 100000000)%R.
  Proof. unfold tiny, Rleb. destruct (Rle_dec _ _); [auto|discriminate]. Qed.
  Lemma slice_error s x : passive_slice b x -> (bcomp b = 3%nat -> transverse g axis k (field_hat s)) ->
    (gap b (wave b (propagate b s (fst x) (snd x))) (exact_slice b k x (wave b s)) <= neglected b k x * sz (field_hat s) + INR (slices [Propagate (fst x) (snd x)]) * floor)%R.
  Proof.
    intros [D A] T. destruct x as [d m]. cbn [fst snd] in *. pose proof (floor_pos b) as FP. rewrite (propagate_forward b s d m D).
    destruct m as [n|].
    2:{ unfold neglected. cbn [snd]. change (INR (slices [Propagate d None])) with 0%R. rewrite (gap_turned d _ _ (wave b s) (wave b s)) by (intros; first [apply wave_move|apply exact_none]).
        unfold gap. rewrite (size_same _ _ _ (fun _ _ => RtoC 0)) by (intros; f_equal; ring). rewrite (zero_size b). lra. }
    change (INR (slices [Propagate d (Some n)])) with 1%R. rewrite Rmult_1_l. set (t := fun p => cexp (Ci * bk b * excess b (n p) * RtoC d)).
    rewrite (gap_turned d _ _ (wave b (interact b s d n)) (lay t (wave b s))) by (intros; first [apply wave_move|apply exact_lay; assumption]).
    assert (0 <= sz (field_hat s))%R as SP by apply size_nonneg. assert (0 < Cmod (bn b))%R as BP by (apply Cmod_gt_0, Bn).
    unfold neglected. cbn [fst snd]. fold origin. set (tol := (/ 100000000 + / 100000 * Cmod (n origin))%R).
    assert (0 <= tol)%R as TP by (unfold tol; pose proof (Cmod_ge_0 (n origin)); lra).
    assert (0 <= tol / Cmod (bn b))%R as TP' by (apply Rmult_le_pos; [exact TP|left; apply Rinv_0_lt_compat, BP]).
    assert (forall p, inside sh p -> (Cmod (t p) <= 1)%R) as T1 by (intros p Hp; apply (excess_le b k); [assumption..|specialize (A p Hp); nra]).
    destruct (uniform b n) eqn:U.
    - assert (kept (wave b s)) as Kp by (apply kept_transverse; intros C3; apply (transverse_scale b k _ (fun q => propagator b (pending s) q)), T, C3).
      assert (forall z, (forall p, inside sh p -> (Cmod (t p - z)%C <= k * (d * (/ 100000000 + tol / Cmod (bn b))))%R) -> forall F, (forall c q, (c < bcomp b)%nat -> inside sh q -> F c q = z * wave b s c q) ->
        (gap b F (lay t (wave b s)) <= k * (d * (/ 100000000 + tol / Cmod (bn b)) + / 100000000) * sz (field_hat s) + floor)%R) as Q.
      { intros z Hz F HF. rewrite (gap_sym b). unfold gap. rewrite (size_same _ _ _ (lay (fun p => t p - z) (wave b s))).
        - eapply Rle_trans; [apply (lay_bound _ _ _) with (2 := Hz); assert (0 < k * d)%R by nra; nra|]. rewrite wave_size. nra.
        - intros c q Hc Hq. rewrite <- (lay_minus_t t (fun _ => z)). rewrite (HF c q Hc Hq), lay_flat by assumption. reflexivity. }
      assert (inside sh origin) as I0 by apply (shape_inside b G).
      assert (forall p, inside sh p -> (Cmod (t p - t origin)%C <= k * (d * (tol / Cmod (bn b))))%R) as Q1.
      { intros p Hp. eapply Rle_trans; [apply phase_close; [exact D|apply A, Hp|apply A, I0]|]. pose proof (uniform_spec n U p Hp) as Up. fold tol in Up. rewrite Rmult_assoc. apply Rmult_le_compat_l; [lra|]. apply Rmult_le_compat_l; [lra|]. apply Rmult_le_compat_r; [left; apply Rinv_0_lt_compat, BP|exact Up]. }
      unfold interact. rewrite U. destruct (tiny (Cmod (excess b (n origin)))) eqn:Ti.
      + apply (Q 1); [|intros; ring]. intros p Hp. replace (t p - 1) with ((t p - t origin) + (t origin - 1)) by ring. eapply Rle_trans; [apply Cmod_triangle|].
        pose proof (Q1 p Hp) as L1. pose proof (one_close d (n origin) D (A origin I0)) as L2. apply tiny_le in Ti. fold (t origin) in L2. assert (k * d * Cmod (excess b (n origin)) <= k * d * / 100000000)%R by (apply Rmult_le_compat_l; nra). lra.
      + apply (Q (t origin)).
        * intros p Hp. specialize (Q1 p Hp). assert (0 < k * d)%R by nra. nra.
        * intros c q _ _. unfold wave. cbn [field_hat pending]. unfold t. ring.
    - destruct (extended b) eqn:E; [|rewrite (uniform_point b G n E) in U; discriminate U].
      assert (pending (interact b s d n) = 0%R) as P0 by (unfold interact; rewrite U; unfold set_field; rewrite E; reflexivity).
      assert (wave b (interact b s d n) = field_hat (interact b s d n)) as -> by (apply functional_extensionality; intros c; apply functional_extensionality; intros q; unfold wave; rewrite P0, propagator_0; ring).
      rewrite interact_hat by assumption. fold t. pose proof (near_wave s) as NW.
      assert (forall F, (gap b (lay t F) (lay t (wave b s)) <= gap b F (wave b s))%R) as L.
      { intros F. unfold gap at 1. rewrite (lay_minus b t F (wave b s)). apply (lay_power b k); assumption. }
      assert (0 <= k * (d * (/ 100000000 + tol / Cmod (bn b))))%R as X by (assert (0 < k * d)%R by nra; nra).
      destruct (negligible b (read_ft b s)) eqn:Ng.
      + eapply Rle_trans; [apply L|]. rewrite (gap_sym b). unfold gap. rewrite (size_same _ _ _ (read_ft b s)).
        * apply negligible_dark in Ng. pose proof (dark_size b (read_ft b s) Ng). nra.
        * intros c q _ _. unfold wave. rewrite (read_mod b k) by assumption. replace (field_hat s c q * propagator b (pending s) q - 0) with (field_hat s c q * propagator b (pending s) q) by ring. rewrite Cmod_mult, (propagator_mod b k) by assumption. ring.
      + eapply Rle_trans; [apply L|]. nra.
  Qed.
  Lemma exact_near x F H : passive_slice b x -> (gap b (exact_slice b k x F) (exact_slice b k x H) <= gap b F H)%R.
  Proof.
    intros [D A]. destruct x as [d m]. cbn [fst snd] in *. destruct m as [n|].
    - rewrite (gap_turned d _ _ (lay (fun p => cexp (Ci * bk b * excess b (n p) * RtoC d)) F) (lay (fun p => cexp (Ci * bk b * excess b (n p) * RtoC d)) H)) by (intros; apply exact_lay; assumption).
      unfold gap at 1. rewrite lay_minus. apply (lay_power b k); try assumption. intros p Hp. apply (excess_le b k); [assumption..|]. specialize (A p Hp). nra.
    - rewrite (gap_turned d _ _ F H) by (intros; apply exact_none). lra.
  Qed.
  Lemma slices_error l : Forall (passive_slice b) l -> forall s F, (bcomp b = 3%nat -> transverse g axis k (field_hat s)) ->
    (gap b (wave b (run b s (there l))) (exact_slices b k l F) <= gap b (wave b s) F + all_neglected b k l * sz (field_hat s) + INR (slices (there l)) * floor)%R.
  Proof.
    intros H. induction H as [|x l A H IH]; intros s F T.
    - unfold exact_slices, run. cbn [there map fold_left all_neglected fold_right slices INR]. lra.
    - unfold run in *. change (there (x :: l)) with (Propagate (fst x) (snd x) :: there l). cbn [fold_left act exact_slices]. fold (exact_slices b k l). rewrite slices_cons.
      set (s1 := propagate b s (fst x) (snd x)).
      assert (bcomp b = 3%nat -> transverse g axis k (field_hat s1)) as T1 by (intros C3; exact (act_transverse b k G K BK C3 s (Propagate (fst x) (snd x)) (T C3))).
      specialize (IH s1 (exact_slice b k x F) T1). pose proof (slice_error s x A T) as E. fold s1 in E. pose proof (exact_near x (wave b s) F A) as N. pose proof (gap_triangle b (wave b s1) (exact_slice b k x (wave b s)) (exact_slice b k x F)) as Tr.
      assert (sz (field_hat s1) <= sz (field_hat s))%R as P.
      { apply size_mono. apply (act_power b k G K BK Comp s (Propagate (fst x) (snd x))). destruct A as [D A]. cbn [passive]. destruct (snd x) as [n|]; [|exact I]. intros p Hp. specialize (A p Hp). nra. }
      assert (0 <= all_neglected b k l)%R as Q.
      { clear -K H Bn. induction H as [|y l A H IH]; [cbn; lra|]. cbn [all_neglected fold_right]. fold (all_neglected b k l). enough (0 <= neglected b k y)%R by lra. unfold neglected. destruct A as [D _]. destruct (snd y) as [n|]; [|lra].
        pose proof (Cmod_ge_0 (n [0; 0; 0]%nat)) as M. assert (0 <= (/ 100000000 + / 100000 * Cmod (n [0; 0; 0]%nat)) / Cmod (bn b))%R by (apply Rmult_le_pos; [lra|left; apply Rinv_0_lt_compat, Cmod_gt_0, Bn]). set (u := ((/ 100000000 + / 100000 * Cmod (n [0; 0; 0]%nat)) / Cmod (bn b))%R) in *. assert (0 <= fst y * (/ 100000000 + u))%R by nra. nra. }
      cbn [all_neglected fold_right]. fold (all_neglected b k l). assert (all_neglected b k l * sz (field_hat s1) <= all_neglected b k l * sz (field_hat s))%R by (apply Rmult_le_compat_l; assumption). change (fold_left (fun F0 x0 => exact_slice b k x0 F0) l (exact_slice b k x F)) with (exact_slices b k l (exact_slice b k x F)). lra.
  Qed.
  Lemma start_exact F c q : (c < bcomp b)%nat -> project b F c q = exact_start b k F c q.
  Proof.
    intros Hc. unfold exact_start. destruct Comp as [C1|C3].
    - rewrite C1. cbn [Nat.eqb]. rewrite (project_scalar b C1). reflexivity.
    - rewrite C3. cbn [Nat.eqb]. apply (project_part b k G K BK C3). lia.
  Qed.
  Lemma beam_error F l s : Forall (passive_slice b) l ->
    (gap b (read_ft b (run b s (SetFt F :: there l))) (exact_slices b k l (exact_start b k F)) <= (all_neglected b k l + k * / 100000000) * sz F + INR (slices (there l)) * floor)%R.
  Proof.
    intros H. unfold run. cbn [fold_left act]. fold (run b (set_ft b F) (there l)). set (s0 := set_ft b F).
    assert (bcomp b = 3%nat -> transverse g axis k (field_hat s0)) as T by (intros C3; apply (project_transverse b k G K BK C3)).
    pose proof (slices_error l H s0 (exact_start b k F) T) as E. pose proof (near_wave (run b s0 (there l))) as N. pose proof (gap_triangle b (read_ft b (run b s0 (there l))) (wave b (run b s0 (there l))) (exact_slices b k l (exact_start b k F))) as Tr.
    assert (gap b (wave b s0) (exact_start b k F) = 0)%R as Z.
    { unfold gap. rewrite (size_same _ _ _ (fun _ _ => RtoC 0)); [apply zero_size|]. intros c q Hc Hq. unfold wave, s0. cbn [set_ft field_hat pending]. rewrite propagator_0, (start_exact F c q Hc). f_equal. ring. }
    assert (sz (field_hat s0) <= sz F)%R as P0 by (apply size_mono, (project_power b k); assumption).
    assert (sz (field_hat (run b s0 (there l))) <= sz (field_hat s0))%R as P1.
    { apply size_mono, (run_power b k G K BK Comp). unfold there. apply Forall_map. eapply Forall_impl; [|exact H]. intros x [D A]. cbn [passive]. destruct (snd x) as [n|]; [|exact I]. intros p Hp. specialize (A p Hp). nra. }
    assert (0 <= all_neglected b k l)%R as Q.
    { clear -K H Bn. induction H as [|y l A H IH]; [cbn; lra|]. cbn [all_neglected fold_right]. fold (all_neglected b k l). enough (0 <= neglected b k y)%R by lra. unfold neglected. destruct A as [D _]. destruct (snd y) as [n|]; [|lra].
      pose proof (Cmod_ge_0 (n [0; 0; 0]%nat)) as M. assert (0 <= (/ 100000000 + / 100000 * Cmod (n [0; 0; 0]%nat)) / Cmod (bn b))%R by (apply Rmult_le_pos; [lra|left; apply Rinv_0_lt_compat, Cmod_gt_0, Bn]). set (u := ((/ 100000000 + / 100000 * Cmod (n [0; 0; 0]%nat)) / Cmod (bn b))%R) in *. assert (0 <= fst y * (/ 100000000 + u))%R by nra. nra. }
    assert (all_neglected b k l * sz (field_hat s0) <= all_neglected b k l * sz F)%R by (apply Rmult_le_compat_l; assumption). assert (k * / 100000000 * sz (field_hat (run b s0 (there l))) <= k * / 100000000 * sz F)%R by (apply Rmult_le_compat_l; lra). lra.
  Qed.
  Lemma total_neglected N l : (forall x n, In x l -> snd x = Some n -> (Cmod (n [0; 0; 0]%nat) <= N)%R) -> (0 <= N)%R -> Forall (passive_slice b) l ->
    (all_neglected b k l <= k * (total_thickness l * (/ 100000000 + (/ 100000000 + / 100000 * N) / Cmod (bn b)) + INR (length l) * / 100000000))%R.
  Proof.
    intros Hn N0 H. assert (0 < Cmod (bn b))%R as BP by (apply Cmod_gt_0, Bn). set (u := ((/ 100000000 + / 100000 * N) / Cmod (bn b))%R).
    assert (0 <= u)%R as U by (apply Rmult_le_pos; [lra|left; apply Rinv_0_lt_compat, BP]).
    induction H as [|x l A H IH]; [cbn; lra|]. cbn [all_neglected total_thickness fold_right length]. fold (all_neglected b k l) (total_thickness l). rewrite S_INR. specialize (IH (fun y n Hy => Hn y n (or_intror Hy))).
    enough (neglected b k x <= k * (fst x * (/ 100000000 + u) + / 100000000))%R by lra. destruct A as [D _]. unfold neglected. destruct (snd x) as [n|] eqn:E.
    - apply Rmult_le_compat_l; [lra|]. apply Rplus_le_compat_r. apply Rmult_le_compat_l; [lra|]. apply Rplus_le_compat_l. unfold u. apply Rmult_le_compat_r; [left; apply Rinv_0_lt_compat, BP|]. pose proof (Hn x n (or_introl eq_refl) E). lra.
    - assert (0 <= fst x * (/ 100000000 + u))%R by nra. nra.
  Qed.
End Neglect.
