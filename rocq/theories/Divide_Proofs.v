(** Proofs about thinner slices: C196. *)
From Coq Require Import Reals List Arith Bool ZArith Lia Lra Psatz FunctionalExtensionality.
Require Import Verif.Base Verif.CSum Verif.Field Verif.Fourier_Model Verif.Fourier_Spec Verif.Fourier_Proofs Verif.Vec_Model Verif.Vec_Spec Verif.Vec_Proofs Verif.Modes_Model Verif.Modes_Proofs.
Require Import Verif.Solver_Convergence Verif.Magnetic_Norm Verif.Robust_Spec Verif.Robust_Proofs.
Require Import Verif.Beam_Model Verif.Beam_Spec Verif.Beam_Proofs Verif.Beam_Media Verif.Beam_Slices Verif.Beam_More Verif.Beam_Vector Verif.Beam_Power Verif.Nearby_Spec Verif.Nearby_Proofs Verif.Neglect_Spec Verif.Neglect_Proofs Verif.Detour_Spec Verif.Detour_Proofs Verif.Divide_Spec Verif.Cplx.
Import ListNotations.
Local Open Scope R_scope.
Local Open Scope C_scope.

Section Divide.
  Variables (b : setup) (k : R).
  Hypotheses (G : section_grid (bgrid b) (baxis b)) (K : (0 < k)%R) (BK : bk b = RtoC k) (Comp : bcomp b = 1%nat \/ bcomp b = 3%nat) (Bn : bn b <> 0).
  Notation g := (bgrid b).
  Notation fi := (bfirst b).
  Notation axis := (baxis b).
  Notation sh := (bshape b).
  Notation sz := (size (bcomp b) sh).
  Notation lay := (lay b).
  Notation tr F := (bcomp b = 3%nat -> transverse g axis k F).

  (** ** Layers before the projection *)
  Definition raw (t : sfield) (F : vfield) : vfield := fun c => transmit g fi t (F c).
  Lemma raw_add t u v F c q : agree sh v (fun p => t p + u p) -> raw v F c q = raw t F c q + raw u F c q.
  Proof.
    intros E. unfold raw, transmit. rewrite (to_spectrum_ext b _ (fun p => to_space g fi (F c) p * t p + to_space g fi (F c) p * u p)) by (intros p Hp; rewrite (E p Hp); ring).
    unfold to_spectrum. rewrite <- sum_over_plus. apply sum_over_ext. intros p _. ring.
  Qed.
  Lemma raw_one F c q : inside sh q -> raw (fun _ => 1) F c q = F c q.
  Proof. intros Hq. unfold raw, transmit. rewrite (to_spectrum_ext b _ (to_space g fi (F c))) by (intros p _; ring). exact (spectrum_space b G (F c) q Hq). Qed.
  Lemma raw_twice t u v F c q : agree sh v (fun p => t p * u p) -> raw v F c q = raw t (raw u F) c q.
  Proof.
    intros E. unfold raw, transmit. apply to_spectrum_ext. intros p Hp. rewrite (space_spectrum b G _ p Hp), (E p Hp). ring.
  Qed.
  Lemma to_space_minus F H p : to_space g fi (fun q => F q - H q) p = to_space g fi F p - to_space g fi H p.
  Proof.
    unfold to_space. transitivity ((sum_over sh (fun q => F q * cis (rsum 3 (fun c => kvec g c q * coordinate g fi p c)%R)) - sum_over sh (fun q => H q * cis (rsum 3 (fun c => kvec g c q * coordinate g fi p c)%R))) / RtoC (INR (points (rshape g)))).
    - f_equal. rewrite <- sum_over_minus. apply sum_over_ext. intros q _. ring.
    - unfold bshape, Cdiv. ring.
  Qed.
  Lemma raw_minus t F H c q : raw t F c q - raw t H c q = raw t (fun i p => F i p - H i p) c q.
  Proof.
    unfold raw, transmit, to_spectrum. rewrite <- sum_over_minus. apply sum_over_ext. intros p _. rewrite to_space_minus. ring.
  Qed.
  Lemma raw_bound t e F : (0 <= e)%R -> (forall p, inside sh p -> (Cmod (t p) <= e)%R) -> (sz (raw t F) <= e * sz F)%R.
  Proof.
    intros E0 T. apply vnorm_le; [exact E0|]. unfold vnorm2. rewrite <- rsum_scal. apply rsum_le. intros c _. unfold raw, transmit. rewrite (spectrum_power b G), (space_power b G (F c)). rewrite <- Rmult_assoc, (Rmult_comm (e * e)), Rmult_assoc. apply Rmult_le_compat_l; [apply pos_INR|].
    unfold norm2. rewrite <- rsum_over_scal. apply rsum_over_le. intros p Hp. rewrite Cmod_mult. specialize (T p Hp). pose proof (Cmod_ge_0 (t p)). pose proof (Cmod_ge_0 (to_space g fi (F c) p)). set (x := Cmod (to_space g fi (F c) p)) in *. set (y := Cmod (t p)) in *.
    replace (x * y * (x * y))%R with (x * x * (y * y))%R by ring. assert (y * y <= e * e)%R by nra. assert (0 <= x * x)%R by nra. nra.
  Qed.
  Lemma turn_bound d F : (0 <= d)%R -> (gap b (fun c q => F c q * propagator b d q)%C F <= k * d * sz F)%R.
  Proof.
    intros D. unfold gap. rewrite (size_same _ _ _ (fun c q => F c q * (propagator b d q - 1))) by (intros; f_equal; ring). apply vnorm_le; [nra|]. unfold vnorm2. rewrite <- rsum_scal. apply rsum_le. intros c _. unfold norm2. rewrite <- rsum_over_scal. apply rsum_over_le. intros q _. rewrite Cmod_mult.
    pose proof (turn_close b k G K BK d 0 q) as Q. rewrite propagator_0 in Q. replace (d - 0)%R with d in Q by ring. rewrite Rabs_pos_eq in Q by exact D. pose proof (Cmod_ge_0 (propagator b d q - 1)) as Q0. set (u := Cmod (propagator b d q - 1)) in *. set (v := Cmod (F c q)) in *.
    replace (v * u * (v * u))%R with (u * u * (v * v))%R by ring. apply Rmult_le_compat_r; [nra|]. apply Rmult_le_compat; assumption.
  Qed.
  Lemma project_minus F H c q : project b F c q - project b H c q = project b (fun i p => F i p - H i p) c q.
  Proof. unfold project. destruct (1 <? bcomp b)%nat; [|reflexivity]. rewrite !csum3. ring. Qed.
  Lemma project_scale F h c q : project b (fun i p => F i p * h p) c q = project b F c q * h q.
  Proof. unfold project. destruct (1 <? bcomp b)%nat; [|reflexivity]. rewrite !csum3. ring. Qed.
  Lemma project_near F H : (gap b (project b F) (project b H) <= gap b F H)%R.
  Proof.
    unfold gap. rewrite (size_same _ _ _ (project b (fun i p => F i p - H i p))) by (intros; rewrite project_minus; reflexivity). apply size_mono, (project_power b k); assumption.
  Qed.

  (** ** Two parts *)
  Notation delay := (delay b).
  Lemma delay_plus d d' m p : delay ((d + d')%R, m) p = delay (d', m) p * delay (d, m) p.
  Proof. unfold Detour_Proofs.delay. cbn [fst snd]. rewrite <- cexp_plus. f_equal. rewrite RtoC_plus. ring. Qed.
  Lemma delay_one N d m p : passive_slice b (d, m) -> inside sh p -> (Cmod (index_in b m p / bn b - 1)%C <= N)%R -> (Cmod (delay (d, m) p - 1)%C <= k * d * N)%R.
  Proof.
    intros A Hp H. pose proof (index_passive b Bn (d, m) p A Hp) as I. destruct A as [D _]. cbn [fst snd] in *. unfold Detour_Proofs.delay. cbn [fst snd]. eapply Rle_trans; [apply (one_close b k K BK); assumption|]. unfold excess. apply Rmult_le_compat_l; [nra|exact H].
  Qed.
  Lemma project_plus F H c q : project b (fun i p => F i p + H i p) c q = project b F c q + project b H c q.
  Proof. unfold project. destruct (1 <? bcomp b)%nat; [|reflexivity]. rewrite !csum3. ring. Qed.
  Lemma two_parts N d d' m F : passive_slice b (d, m) -> passive_slice b (d', m) -> (0 <= N)%R -> (forall p, inside sh p -> (Cmod (index_in b m p / bn b - 1)%C <= N)%R) -> tr F ->
    (gap b (exact_slice b k ((d + d')%R, m) F) (exact_slice b k (d', m) (exact_slice b k (d, m) F)) <= k * k * (N * (1 + N)) * (2 * (d * d')) * sz F)%R.
  Proof.
    intros A A' N0 HN T. set (W := exact_slice b k (d, m) F). assert (tr W) as TW by (apply exact_transverse; assumption). pose proof (proj1 A) as D. pose proof (proj1 A') as D'. cbn [fst] in D, D'.
    set (tb := delay (d, m)). set (ta := delay (d', m)). set (Da := fun p => ta p - 1). set (H := raw tb F).
    assert (forall c, (c < bcomp b)%nat -> (c < 3)%nat) as C3 by (intros c Hc; destruct Comp; lia).
    assert (forall t F c q, (c < bcomp b)%nat -> inside sh q -> lay t F c q = project b (raw t F) c q) as LP by (intros; apply (lay_project b G); auto).
    assert (forall c q, (c < bcomp b)%nat -> inside sh q -> W c q = project b H c q * propagator b d q) as EW.
    { intros c q Hc Hq. unfold W. rewrite (exact_delay b k G K BK Comp Bn) by assumption. rewrite LP by assumption. reflexivity. }
    assert (forall F c q, tr F -> (c < bcomp b)%nat -> inside sh q -> project b F c q = F c q) as PK by (intros F0 c q TF; apply (kept_transverse b k G K BK Comp F0 TF)).
    rewrite (gap_turned b k G K BK d' _ _ (fun c q => lay (delay ((d + d')%R, m)) F c q * propagator b d q) (lay ta W)).
    2:{ intros c q Hc Hq. rewrite (exact_delay b k G K BK Comp Bn) by assumption. cbn [fst]. rewrite propagator_plus. ring. }
    2:{ intros c q Hc Hq. apply (exact_delay b k G K BK Comp Bn); assumption. }
    set (Q := fun c q => raw Da H c q * propagator b d q). set (Z := raw Da W).
    assert (gap b (fun c q => lay (delay ((d + d')%R, m)) F c q * propagator b d q) (lay ta W) = gap b (project b Q) (project b Z)) as ->.
    { apply size_same. intros c q Hc Hq. f_equal.
      assert (lay (delay ((d + d')%R, m)) F c q * propagator b d q = W c q + project b Q c q) as ->.
      { rewrite LP by assumption. rewrite (project_ext b _ (fun i q => H i q + raw Da H i q)).
        - rewrite project_plus. unfold Q. rewrite project_scale, (EW c q Hc Hq). ring.
        - apply C3, Hc.
        - intros i _. rewrite (raw_add tb (fun p => Da p * tb p)) by (intros p _; rewrite delay_plus; unfold Da, ta, tb; ring). unfold H. f_equal. apply raw_twice. intros p _. reflexivity. }
      assert (lay ta W c q = W c q + project b Z c q) as ->; [|ring].
      rewrite LP by assumption. rewrite (project_ext b _ (fun i q => W i q + Z i q)).
      - rewrite project_plus, PK by assumption. reflexivity.
      - apply C3, Hc.
      - intros i _. rewrite (raw_add (fun _ => 1) Da) by (intros p _; unfold Da; ring). rewrite raw_one by exact Hq. reflexivity. }
    eapply Rle_trans; [apply project_near|].
    assert (forall p, inside sh p -> (Cmod (Da p) <= k * d' * N)%R) as Ba by (intros p Hp; exact (delay_one N d' m p A' Hp (HN p Hp))).
    assert (forall p, inside sh p -> (Cmod (tb p - 1)%C <= k * d * N)%R) as Bb by (intros p Hp; exact (delay_one N d m p A Hp (HN p Hp))).
    assert (0 <= k * d' * N)%R as Pa by (repeat apply Rmult_le_pos; lra). assert (0 <= k * d * N)%R as Pb by (repeat apply Rmult_le_pos; lra).
    assert (sz H <= sz F)%R as SH by (rewrite <- (Rmult_1_l (sz F)); apply raw_bound; [lra|]; intros p Hp; exact (delay_le b k K BK Bn (d, m) p A Hp)).
    assert (gap b H F <= k * d * N * sz F)%R as HF.
    { unfold gap. rewrite (size_same _ _ _ (raw (fun p => tb p - 1) F)); [apply raw_bound; assumption|]. intros c q _ Hq. f_equal. unfold H. rewrite (raw_add (fun _ => 1) (fun p => tb p - 1) tb) by (intros p _; ring). rewrite raw_one by exact Hq. ring. }
    assert (gap b F W <= k * d * sz F + k * d * N * sz F)%R as FW.
    { pose proof (gap_triangle b F (fun c q => F c q * propagator b d q) W) as Tr. pose proof (turn_bound d F ltac:(lra)) as L1. rewrite (gap_sym b) in L1.
      assert (gap b (fun c q => F c q * propagator b d q)%C W <= k * d * N * sz F)%R; [|lra]. eapply Rle_trans; [|exact HF]. rewrite (gap_sym b H F).
      rewrite (gap_turned b k G K BK d _ _ F (project b H)) by (intros; first [reflexivity|apply EW; assumption]).
      eapply Rle_trans; [|apply project_near]. right. apply size_same. intros c q Hc Hq. rewrite (PK F c q T Hc Hq). reflexivity. }
    pose proof (gap_triangle b H F W) as Tr1. pose proof (gap_triangle b Q (raw Da H) Z) as Tr2. pose proof (turn_bound d (raw Da H) ltac:(lra)) as L1. fold Q in L1.
    assert (gap b (raw Da H) Z <= k * d' * N * gap b H W)%R as L2.
    { unfold gap at 1. rewrite (size_same _ _ _ (raw Da (fun i p => H i p - W i p))) by (intros; unfold Z; rewrite raw_minus; reflexivity). apply raw_bound; assumption. }
    pose proof (raw_bound Da _ H Pa Ba) as L3. pose proof (size_nonneg (bcomp b) sh F) as SF. set (f := sz F) in *.
    assert (gap b H W <= k * d * (1 + 2 * N) * f)%R as L4 by lra.
    assert (k * d * sz (raw Da H) <= k * d * (k * d' * N * f))%R as M1 by (apply Rmult_le_compat_l; [nra|]; eapply Rle_trans; [exact L3|]; apply Rmult_le_compat_l; assumption).
    assert (k * d' * N * gap b H W <= k * d' * N * (k * d * (1 + 2 * N) * f))%R as M2 by (apply Rmult_le_compat_l; assumption).
    replace (k * k * (N * (1 + N)) * (2 * (d * d')) * f)%R with (k * d * (k * d' * N * f) + k * d' * N * (k * d * (1 + 2 * N) * f))%R by ring. lra.
  Qed.

  (** ** Any number of parts *)
  Lemma whole_pos ds m : ds <> [] -> (forall d, In d ds -> passive_slice b (d, m)) -> passive_slice b (whole ds, m).
  Proof.
    intros Ne A. destruct ds as [|d ds]; [contradiction|]. pose proof (A d (or_introl eq_refl)) as [D M]. split; [|exact M]. cbn [fst] in *. clear Ne M. cbn [whole fold_right]. fold (whole ds).
    assert (0 <= whole ds)%R; [|lra]. assert (forall d, In d ds -> (0 < d)%R) as P by (intros x Hx; exact (proj1 (A x (or_intror Hx)))). clear A D. induction ds as [|x ds IH]; cbn; [lra|]. specialize (IH (fun y Hy => P y (or_intror Hy))). pose proof (P x (or_introl eq_refl)). unfold whole in IH. lra.
  Qed.
  Lemma parts N m ds : ds <> [] -> (forall d, In d ds -> passive_slice b (d, m)) -> (0 <= N)%R -> (forall p, inside sh p -> (Cmod (index_in b m p / bn b - 1)%C <= N)%R) -> forall F, tr F ->
    (gap b (exact_slice b k (whole ds, m) F) (exact_slices b k (map (fun d => (d, m)) ds) F) <= k * k * (N * (1 + N)) * (whole ds * whole ds) * sz F)%R.
  Proof.
    intros Ne A N0 HN. set (c := (k * k * (N * (1 + N)))%R). assert (0 <= c)%R as C0 by (unfold c; apply Rmult_le_pos; nra).
    induction ds as [|d ds IH]; [contradiction|]. intros F T. pose proof (size_nonneg (bcomp b) sh F) as SF. pose proof (A d (or_introl eq_refl)) as Ad. pose proof (proj1 Ad) as D. cbn [fst] in D.
    destruct ds as [|d' ds].
    - unfold exact_slices. cbn [map fold_left whole fold_right]. replace (d + 0)%R with d by ring. unfold gap. rewrite (size_same _ _ _ (fun _ _ => RtoC 0)) by (intros; f_equal; ring). rewrite zero_size. apply Rmult_le_pos; [apply Rmult_le_pos; [exact C0|nra]|exact SF].
    - set (r := d' :: ds) in *. change (whole (d :: r)) with (d + whole r)%R. assert (r <> []) as Nr by discriminate. assert (forall x, In x r -> passive_slice b (x, m)) as Ar by (intros x Hx; apply A; right; exact Hx).
      pose proof (whole_pos r m Nr Ar) as Aw. pose proof (proj1 Aw) as Dw. cbn [fst] in Dw. set (W := exact_slice b k (d, m) F). assert (tr W) as TW by (apply exact_transverse; assumption).
      change (exact_slices b k (map (fun d => (d, m)) (d :: r)) F) with (exact_slices b k (map (fun d => (d, m)) r) W).
      specialize (IH Nr Ar W TW). pose proof (two_parts N d (whole r) m F Ad Aw N0 HN T) as L. fold W c in L. pose proof (exact_size b k G K BK Comp Bn (d, m) F Ad T) as P. fold W in P.
      pose proof (gap_triangle b (exact_slice b k ((d + whole r)%R, m) F) (exact_slice b k (whole r, m) W) (exact_slices b k (map (fun d => (d, m)) r) W)) as Tr. set (w := whole r) in *.
      assert (0 <= c * (w * w))%R as Cw by (apply Rmult_le_pos; nra). assert (c * (w * w) * sz W <= c * (w * w) * sz F)%R by (apply Rmult_le_compat_l; assumption).
      assert (0 <= c * (d * d) * sz F)%R by (apply Rmult_le_pos; [apply Rmult_le_pos; nra|exact SF]).
      replace (c * ((d + w) * (d + w)) * sz F)%R with (c * (d * d) * sz F + c * (2 * (d * w)) * sz F + c * (w * w) * sz F)%R by ring. lra.
  Qed.
  Lemma exact_slices_size l : Forall (passive_slice b) l -> forall F, tr F -> (sz (exact_slices b k l F) <= sz F)%R /\ tr (exact_slices b k l F).
  Proof.
    intros A. induction A as [|x l Ax A IH]; intros F T; [split; [right; reflexivity|exact T]|]. change (exact_slices b k (x :: l) F) with (exact_slices b k l (exact_slice b k x F)).
    destruct (IH _ (exact_transverse b k G K BK x F T)) as [L TL]. split; [|exact TL]. pose proof (exact_size b k G K BK Comp Bn x F Ax T). lra.
  Qed.
  Lemma exact_slices_near l : Forall (passive_slice b) l -> forall F H, (gap b (exact_slices b k l F) (exact_slices b k l H) <= gap b F H)%R.
  Proof.
    intros A. induction A as [|x l Ax A IH]; intros F H; [right; reflexivity|]. change (gap b (exact_slices b k l (exact_slice b k x F)) (exact_slices b k l (exact_slice b k x H)) <= gap b F H)%R.
    eapply Rle_trans; [apply IH|]. apply (exact_near b k G K BK Comp); exact Ax.
  Qed.
  Lemma proper_fine N l : Forall (proper_layer b N) l -> Forall (passive_slice b) (coarse l) /\ Forall (passive_slice b) (fine l).
  Proof.
    intros H. induction H as [|[ds m] l (Ne & A & _) H [IH1 IH2]]; [split; constructor|]. cbn [fst snd] in *. split; cbn [coarse fine map flat_map].
    - constructor; [apply whole_pos; assumption|exact IH1].
    - apply Forall_app. split; [|exact IH2]. apply Forall_map, Forall_forall. exact A.
  Qed.
  Lemma layers_divided N l : (0 <= N)%R -> Forall (proper_layer b N) l -> forall F, tr F ->
    (gap b (exact_slices b k (coarse l) F) (exact_slices b k (fine l) F) <= k * k * (N * (1 + N)) * squares l * sz F)%R.
  Proof.
    intros N0 H. set (c := (k * k * (N * (1 + N)))%R). assert (0 <= c)%R as C0 by (unfold c; apply Rmult_le_pos; nra).
    induction H as [|[ds m] l P H IH]; intros F T.
    - unfold exact_slices. cbn. unfold gap. rewrite (size_same _ _ _ (fun _ _ => RtoC 0)) by (intros; f_equal; ring). rewrite zero_size. lra.
    - pose proof P as (Ne & A & HN). cbn [fst snd] in *. pose proof (whole_pos ds m Ne A) as Aw. pose proof (proper_fine N l H) as [_ Af].
      set (W := exact_slice b k (whole ds, m) F). set (V := exact_slices b k (map (fun d => (d, m)) ds) F).
      change (exact_slices b k (coarse ((ds, m) :: l)) F) with (exact_slices b k (coarse l) W).
      assert (exact_slices b k (fine ((ds, m) :: l)) F = exact_slices b k (fine l) V) as -> by (unfold V, exact_slices, fine; cbn [flat_map fst snd]; rewrite fold_left_app; reflexivity).
      specialize (IH W (exact_transverse b k G K BK _ F T)). pose proof (parts N m ds Ne A N0 HN F T) as L. fold W V c in L. pose proof (exact_size b k G K BK Comp Bn _ F Aw T) as Sz. fold W in Sz.
      pose proof (exact_slices_near (fine l) Af W V) as Nr. pose proof (gap_triangle b (exact_slices b k (coarse l) W) (exact_slices b k (fine l) W) (exact_slices b k (fine l) V)) as Tr.
      cbn [squares fold_right fst]. fold (squares l). assert (0 <= squares l)%R as Sq by (clear; induction l as [|x l IH]; cbn; [lra|]; fold (squares l); pose proof (Rle_0_sqr (whole (fst x))); unfold Rsqr in *; lra).
      assert (c * squares l * sz W <= c * squares l * sz F)%R by (apply Rmult_le_compat_l; [apply Rmult_le_pos; assumption|exact Sz]).
      replace (c * (whole ds * whole ds + squares l) * sz F)%R with (c * (whole ds * whole ds) * sz F + c * squares l * sz F)%R by ring. lra.
  Qed.
  Lemma beam_divided N F l s s' : (0 <= N)%R -> Forall (proper_layer b N) l ->
    (gap b (read_ft b (run b s (SetFt F :: there (coarse l)))) (read_ft b (run b s' (SetFt F :: there (fine l)))) <= k * k * (N * (1 + N)) * squares l * sz F + slack b k (coarse l) F + slack b k (fine l) F)%R.
  Proof.
    intros N0 H. destruct (proper_fine N l H) as [Ac Af]. pose proof (beam_error b k G K BK Comp Bn F (coarse l) s Ac) as E. pose proof (beam_error b k G K BK Comp Bn F (fine l) s' Af) as E'.
    pose proof (layers_divided N l N0 H (exact_start b k F) (start_transverse b k G K BK F)) as D. pose proof (start_size b k G K BK Comp F) as P.
    assert (0 <= squares l)%R as Sq by (clear; induction l as [|x l IH]; cbn; [lra|]; fold (squares l); pose proof (Rle_0_sqr (whole (fst x))); unfold Rsqr in *; lra).
    assert (k * k * (N * (1 + N)) * squares l * sz (exact_start b k F) <= k * k * (N * (1 + N)) * squares l * sz F)%R by (apply Rmult_le_compat_l; [apply Rmult_le_pos; [apply Rmult_le_pos; nra|exact Sq]|exact P]).
    pose proof (gap_triangle b (read_ft b (run b s (SetFt F :: there (coarse l)))) (exact_slices b k (coarse l) (exact_start b k F)) (read_ft b (run b s' (SetFt F :: there (fine l))))) as T1.
    pose proof (gap_triangle b (exact_slices b k (coarse l) (exact_start b k F)) (exact_slices b k (fine l) (exact_start b k F)) (read_ft b (run b s' (SetFt F :: there (fine l))))) as T2.
    rewrite (gap_sym b (exact_slices b k (fine l) (exact_start b k F))) in T2. unfold slack. unfold Nearby_Proofs.floor in E, E'. lra.
  Qed.
  Lemma squares_thin h l : (forall x, In x l -> (0 <= whole (fst x) <= h)%R) -> (squares l <= h * total_thickness (coarse l))%R.
  Proof.
    intros H. induction l as [|x l IH]; [cbn; lra|]. cbn [squares total_thickness coarse map fold_right fst]. fold (squares l) (coarse l) (total_thickness (coarse l)). specialize (IH (fun y Hy => H y (or_intror Hy))). pose proof (H x (or_introl eq_refl)). nra.
  Qed.
End Divide.
