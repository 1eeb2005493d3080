(** Using a Solution again. *)
From Coq Require Import Reals Lra Lia List Arith ZArith Bool.
Require Import Verif.Base Verif.Num Verif.Grid_Model Verif.Grid_Spec Verif.Grid_Proofs Verif.Bound_Model Verif.Setup_Model Verif.Entry_Model Verif.Entry_Spec Verif.Entry_Proofs.
Require Import Verif.Array_Glue.
Require Import Verif.Cplx Verif.CSum Verif.Field Verif.Fourier_Model Verif.Fourier_Spec Verif.Vec_Model Verif.Vec_Spec Verif.Vec_Proofs Verif.Vec_Grid Verif.Solver_Model Verif.Solver_Spec Verif.Solver_Proofs.
Require Import Verif.Derived_Model Verif.Derived_Spec Verif.Choice_Model Verif.Choice_Proofs Verif.Choice_Construct Verif.Array_Model Verif.Array_Spec.
Require Import Verif.Material_Model Verif.Material_Spec Verif.Solver_Convergence Verif.Solver_Limit Verif.Solver_Choice Verif.Choice_Gain Verif.Run_Model Verif.Run_Spec Verif.Run_Proofs Verif.Run_Solve Verif.Run_Zero Verif.Run_Glue Verif.Run_Converge.
Require Import Verif.Whole_Model Verif.Whole_Spec Verif.Whole_Proofs Verif.Whole_Results Verif.Warm_Model Verif.Warm_Proofs.
Import ListNotations.
Local Open Scope R_scope.
Local Open Scope C_scope.

(** ** Updates that only shrink *)
Section Shrink.
  Variables (u : si) (k0 : R) (os : vfield -> ops).
  Hypothesis Hsource : forall S S', with_source (os S) S' = os S'.
  Hypothesis shrinks : forall S F, norm (os S) (update (os S) F) <> 0%R -> (norm (os S) (update (os S) (next_field (os S) F)) < norm (os S) (update (os S) F))%R.

  (** The stored norm is that of the update that gave the field. *)
  Definition kept (S : vfield) (s : solution) : Prop :=
    wavenumber s = k0 /\ operators s = os S /\
    (prev_norm s = Inf \/ exists F, field s = next_field (os S) F /\ prev_norm s = Fin (norm (os S) (update (os S) F))).
  Lemma kept_accepts S s : kept S s -> prev_norm s <> Fin 0 ->
    prev_norm s = Inf \/ exists q, prev_norm s = Fin q /\ (0 < q)%R /\ (norm (operators s) (update (operators s) (field s)) < q)%R.
  Proof.
    intros (_ & Ho & [Hp|(F & Hf & Hp)]) Hn; [left; exact Hp|]. right. rewrite Hp in *. rewrite Ho, Hf.
    assert (norm (os S) (update (os S) F) <> 0)%R as Hz by congruence. eexists. split; [reflexivity|].
    pose proof (norm_nonneg (os S) (update (os S) F)). split; [lra|apply shrinks; exact Hz].
  Qed.
  Lemma kept_next S s fresh : kept S s -> kept S (fst (next fresh s)).
  Proof.
    intros H. assert (prev_norm s = Fin 0 \/ prev_norm s <> Fin 0) as [E|E].
    { destruct (prev_norm s) as [x|]; [|right; discriminate]. destruct (Req_EM_T x 0) as [->|n]; [left; reflexivity|right; congruence]. }
    - rewrite (next_raise s fresh E). exact H.
    - rewrite (next_accept s fresh (kept_accepts S s H E)). destruct H as (Hw & Ho & _). cbn [fst]. split; [exact Hw|]. split; [exact Ho|]. right. exists (field s).
      cbn [field prev_norm set_prev_norm set_field]. rewrite Ho. split; reflexivity.
  Qed.
  Lemma kept_perform S s a : kept S s -> keeps_material a -> kept (assigned_source u k0 S a) (perform u s a).
  Proof.
    intros H Ha. pose proof H as (Hw & Ho & Hp). destruct a; cbn [perform assigned_source keeps_material] in *; try contradiction.
    - apply kept_next. exact H.
    - split; [exact Hw|]. split; [exact Ho|]. left. reflexivity.
    - split; [exact Hw|]. split; [|left; reflexivity]. cbn. rewrite Ho. apply Hsource.
    - split; [exact Hw|]. split; [|left; reflexivity]. cbn. rewrite Ho, Hsource. f_equal. apply vfield_ext. intros c p.
      unfold source_of_current, angular_frequency. rewrite Hw, !RtoC_mult. ring.
    - exact H.
    - destruct (read_residue_same s) as (r & ->). exact H.
  Qed.
  Lemma kept_history l : forall S s, kept S s -> List.Forall keeps_material l -> kept (last_source u k0 l S) (history u l s).
  Proof.
    induction l as [|a l IH]; intros S s H Hl; [exact H|]. inversion Hl as [|? ? Ha Hl']; subst. cbn. apply IH; [apply kept_perform; assumption|exact Hl'].
  Qed.
  (** Solving goes on as if the field had been assigned. *)
  Lemma kept_loop {W} S s fuel (cb : callback W) fresh (w : W) : kept S s -> prev_norm s <> Fin 0 -> loop fuel cb fresh w s = loop fuel cb fresh w (set_prev_norm s Inf).
  Proof.
    intros H E. destruct fuel as [|fuel]; [reflexivity|]. cbn [loop].
    rewrite (next_accept s fresh (kept_accepts S s H E)), (next_accept (set_prev_norm s Inf) fresh (or_introl eq_refl)). reflexivity.
  Qed.
  Lemma kept_effect S s fresh : k0 <> 0%R -> kept S s ->
    (previous_update_norm s = Fin 0 /\ snd (next fresh s) = Some ZeroDivisionError /\ get_E (fst (next fresh s)) = get_E s) \/
    (snd (next fresh s) = None /\ change s (fst (next fresh s)) = attempt s /\ previous_update_norm (fst (next fresh s)) = Fin (attempt s)).
  Proof.
    intros Hk H. pose proof H as (Hw & Ho & _). assert (wavenumber s <> 0%R) as Hks by (rewrite Hw; exact Hk).
    assert (norm_ok s) as Hn. { destruct H as (_ & _ & [Hp|(F & _ & Hp)]); unfold norm_ok; rewrite Hp; [exact I|apply norm_nonneg]. }
    assert (prev_norm s = Fin 0 \/ prev_norm s <> Fin 0) as [E|E].
    { destruct (prev_norm s) as [x|]; [|right; discriminate]. destruct (Req_EM_T x 0) as [->|n]; [left; reflexivity|right; congruence]. }
    - left. split; [unfold previous_update_norm; rewrite E; f_equal; unfold Rdiv; ring|]. rewrite (next_raise s fresh E). split; reflexivity.
    - right. rewrite (next_accept s fresh (kept_accepts S s H E)). cbn [fst snd]. split; [reflexivity|]. rewrite (attempt_is s Hks).
      split; [apply change_accept; [exact Hks|reflexivity|reflexivity]|reflexivity].
  Qed.
End Shrink.

(** ** Non-magnetic media *)
Section Medium.
  Variables (v : bool) (g : raster) (k0 : R) (alpha : C) (beta : R) (eps mu : tensor).
  Hypothesis Hs : solvable v g k0.
  Hypothesis Hf : fits v eps.
  Hypothesis Hmu : fits v mu.
  Hypothesis Ha : (0 < snd alpha)%R.
  Hypothesis Hb : (0 < beta)%R.
  Variables (loss rho : R).
  Let n := (if v then 3 else 1)%nat.
  Hypothesis Hloss : absorbs n (rshape g) eps loss.
  Hypothesis Hloss0 : (0 <= loss)%R.
  Hypothesis Hrho : deviates n (rshape g) eps beta (fst alpha) (rho * snd alpha).
  Hypothesis Hr : (0 <= rho < 1)%R.
  Let os (S : vfield) := prepare (scaled k0 g) v false alpha beta eps tzero tzero mu S.
  Let k := Rmin (2 * (loss / (beta * snd alpha))) (1 - rho * rho).

  Lemma me_source S S' : with_source (os S) S' = os S'.
  Proof. apply with_source_prepare; lra. Qed.
  Lemma me_shrinks (S : vfield) F : (exists E, wave_equation v g k0 beta eps E S) -> norm (os S) (update (os S) F) <> 0%R ->
    (norm (os S) (update (os S) (next_field (os S) F)) < norm (os S) (update (os S) F))%R.
  Proof.
    intros (E & HE) Hn. apply norm_lt.
    pose proof (de_lt (os S) _ (si_M_vagree v g k0 alpha beta eps mu S Hs Hf Ha Hb) (si_next_minus v g k0 alpha beta eps mu S Hs Hf Ha Hb)
      (si_M_le v g k0 alpha beta eps mu S Hs Hf Ha Hb loss rho Hloss Hrho Hr Hloss0) _ (si_kappa rho Hr) (si_M_drop v g k0 alpha beta eps mu S Hs Hf Ha Hb loss rho Hloss Hrho Hr Hloss0)
      F _ (si_rate v g k0 alpha beta eps mu S Hs Hf Hmu Ha Hb loss rho Hloss Hrho Hr E F Hloss0 HE) 0%nat) as D.
    apply D. intros Z. apply Hn. apply norm_0. exact Z.
  Qed.
  (** The last change bounds the error by a multiple that does not depend on the source. *)
  Lemma me_error (S : vfield) start (E : vfield) rtol x : (0 < loss)%R -> wave_equation v g k0 beta eps E S -> (0 < rtol)%R -> ended (os S) start k0 None rtol x ->
    (magnitude x (fun c p => get_E x c p - E c p)%C <= 4 / k * rtol * magnitude x (get_E x))%R.
  Proof.
    intros Hl HE Ht (m & Hx & [(i & Hi & _)|(Hsm & _)]); [discriminate|].
    assert (0 < k)%R as Hk.
    { unfold k. apply Rmin_glb_lt; [|nra]. apply Rmult_lt_0_compat; [lra|]. apply Rdiv_lt_0_compat; nra. }
    rewrite (si_reached_E v g k0 alpha beta eps mu S Hs start m x Hx).
    eapply Rle_trans; [apply (si_error v g k0 alpha beta eps mu S Hs Hf Hmu Ha Hb loss rho Hloss Hrho start E k m x (Rmin_l _ _) (Rmin_r _ _) Hk HE Hx)|].
    destruct Hs as (_ & Hk0 & _). assert (0 < k0 * k0)%R as Hkk by (apply k2_pos; exact Hk0).
    unfold Rdiv at 2 4. rewrite <- !Rmult_assoc. apply Rmult_le_compat_r; [left; apply Rinv_0_lt_compat; exact Hkk|]. rewrite Rmult_assoc.
    apply Rmult_le_compat_l; [left; apply Rdiv_lt_0_compat; lra|].
    destruct Hsm as [Hz|Hle]; [|exact Hle].
    unfold os in Hz |- *. rewrite Hz. apply Rmult_le_pos; [lra|apply norm_nonneg].
  Qed.
End Medium.

Lemma last_source_agree u k0 n s l : forall S S' : vfield, vagree n s S S' -> vagree n s (last_source u k0 l S) (last_source u k0 l S').
Proof.
  induction l as [|a l IH]; intros S S' H; [exact H|]. apply IH. destruct a; cbn [assigned_source]; try exact H; intros c p _ _; reflexivity.
Qed.

Section Results.
  Variables (W : Type) (u : si) (eps : R) (settled : R * R) (thick : option R) (q : request) (g : grid RN) (crd : nat -> list R) (v : bool) (k0 m : R)
    (src : vfield) (t : tensor) (chi : list nat -> C).
  Let n := (if v then 3 else 1)%nat.
  Hypothesis He : (0 < eps)%R.
  Hypothesis H1 : (2 * eps <= 1)%R.
  Hypothesis Hm : (0 < m)%R.
  Hypothesis Hq : (800 * sqrt eps * (m * m) < 1)%R.
  Hypothesis Hc : (0 < c_light u)%R.
  Hypothesis Hgrid : q_grid q = AGrid g.
  Hypothesis Hg : Entry_Spec.spatial g.
  Hypothesis Hdim : v = true -> (ndim RN g <= 3)%nat.
  Hypothesis Hcrd : forall i, (i < ndim RN g)%nat -> coordinates g i = Ok (crd i).
  Hypothesis Hxi : q_xi q = GivenArray (number 0).
  Hypothesis Hzeta : q_zeta q = GivenArray (number 0).
  Hypothesis Hmu : q_mu q = GivenArray (number (RtoC m)).
  Hypothesis Hk : asked_wavenumber u q k0.
  Hypothesis Hk0 : k0 <> 0%R.
  Hypothesis Hkind : asked_kind g q v.
  Hypothesis Hsrc : asked_source u g crd k0 q v src.
  Hypothesis Hmed : asked_medium g crd q t.
  Hypothesis Hchi : asked_boundary g q chi.
  Hypothesis Hfit : fits v t.
  Let os (alpha : C) (e0 : tensor) (S : vfield) := prepare (scaled k0 (sampled g)) v false alpha (/ m) e0 tzero tzero (tuniform (RtoC m)) S.
  Let solves (E S : vfield) := wave_equation v (sampled g) k0 (/ m) (plus_isotropic t chi) E S.

  Lemma re_parts loss : (0 <= loss)%R -> absorbs n (points_of g) (plus_isotropic t chi) loss ->
    exists s0 e0 S0 alpha rho, new_solution u eps settled thick q = Ok s0 /\
      kept k0 (os alpha e0) S0 s0 /\
      fits v e0 /\ (0 < snd alpha)%R /\ (0 <= rho < 1)%R /\ deviates n (points_of g) e0 (/ m) (fst alpha) (rho * snd alpha) /\ absorbs n (points_of g) e0 loss /\
      (forall l, vagree n (points_of g) (last_source u k0 l S0) (last_source u k0 l src)) /\
      forall l E, wave_equation v (sampled g) k0 (/ m) e0 E (last_source u k0 l S0) <-> solves E (last_source u k0 l src).
  Proof.
    intros Hl Hab. destruct (whole_solution u eps settled thick q g crd v k0 m src t chi Hc Hgrid Hg Hcrd Hxi Hzeta Hmu Hk Hkind Hsrc Hmed Hchi Hfit) as (s & e0 & S0 & Es & Ew & Ef & Ep & Eo & Ae & AS).
    fold n in AS. pose proof (fits_agree v _ _ _ Ae (fits_plus v t chi Hfit)) as F0. pose proof (agree_absorbs v e0 _ _ F0 Ae loss Hab) as L0.
    destruct (construct_alpha eps (sampled g) k0 v e0 m settled thick S0 He H1 F0 (absorbs_weaken _ _ _ _ 0 Hl L0) Hm Hq) as (alpha & rho & Ea & Pa & Hr & Hd). rewrite Ea in Eo.
    exists s, e0, S0, alpha, rho. refine (conj Es (conj (conj Ew (conj Eo (or_introl Ep))) (conj F0 (conj Pa (conj Hr (conj Hd (conj L0 (conj (fun l => last_source_agree u k0 n _ l S0 src AS) _)))))))).
    intros l E. exact (agree_wave v e0 _ _ F0 Ae (sampled g) k0 (/ m) E _ _ eq_refl (last_source_agree u k0 n _ l S0 src AS)).
  Qed.

  Lemma re_family loss e0 S0 alpha rho : (forall S, exists E, solves E S) -> (0 <= loss)%R -> fits v e0 -> (0 < snd alpha)%R -> (0 <= rho < 1)%R ->
    deviates n (points_of g) e0 (/ m) (fst alpha) (rho * snd alpha) -> absorbs n (points_of g) e0 loss ->
    (forall l E, wave_equation v (sampled g) k0 (/ m) e0 E (last_source u k0 l S0) <-> solves E (last_source u k0 l src)) ->
    (forall S S', with_source (os alpha e0 S) S' = os alpha e0 S') /\ (forall S F, norm (os alpha e0 S) (update (os alpha e0 S) F) <> 0%R -> (norm (os alpha e0 S) (update (os alpha e0 S) (next_field (os alpha e0 S) F)) < norm (os alpha e0 S) (update (os alpha e0 S) F))%R).
  Proof.
    intros Hex Hl F0 Pa Hr Hd L0 HW. pose proof (whole_solvable g v k0 Hg Hdim Hk0) as Hs. pose proof (Rinv_0_lt_compat m Hm) as Hb. split.
    - exact (me_source v (sampled g) k0 alpha (/ m) e0 (tuniform (RtoC m)) Pa Hb).
    - intros S F. apply (me_shrinks v (sampled g) k0 alpha (/ m) e0 (tuniform (RtoC m)) Hs F0 I Pa Hb loss rho L0 Hl Hd Hr S F).
      destruct (Hex S) as (E & HE). exists E. apply (HW [OSetSource S] E). exact HE.
  Qed.
  (** What every history leads to. *)
  Lemma re_history : (forall S, exists E, solves E S) -> absorbs n (points_of g) (plus_isotropic t chi) 0 ->
    exists s0, new_solution u eps settled thick q = Ok s0 /\ forall l fresh, List.Forall keeps_material l -> let s := history u l s0 in
      (previous_update_norm s = Fin 0 /\ snd (next fresh s) = Some ZeroDivisionError /\ get_E (fst (next fresh s)) = get_E s /\ solves (get_E s) (last_source u k0 l src)) \/
      (snd (next fresh s) = None /\ change s (fst (next fresh s)) = attempt s /\ previous_update_norm (fst (next fresh s)) = Fin (attempt s)).
  Proof.
    intros Hex Hab. destruct (re_parts 0 (Rle_refl 0) Hab) as (s0 & e0 & S0 & alpha & rho & Es & HK & F0 & Pa & Hr & Hd & L0 & HA & HW). exists s0. split; [exact Es|]. intros l fresh Hl s.
    pose proof (whole_solvable g v k0 Hg Hdim Hk0) as Hs. pose proof (Rinv_0_lt_compat m Hm) as Hb.
    destruct (re_family 0 e0 S0 alpha rho Hex (Rle_refl 0) F0 Pa Hr Hd L0 HW) as (Hso & Hsh).
    pose proof (kept_history u k0 _ Hso Hsh l S0 s0 HK Hl) as HK'. fold s in HK'.
    destruct (kept_effect k0 _ Hsh _ s fresh Hk0 HK') as [(P1 & P2 & P3)|P]; [left|right; exact P]. refine (conj P1 (conj P2 (conj P3 _))).
    apply HW. destruct HK' as (Ew & Eo & [Ep|(F & Ef & Ep)]).
    { unfold previous_update_norm in P1. rewrite Ep in P1. discriminate. }
    assert (norm (os alpha e0 (last_source u k0 l S0)) (update (os alpha e0 (last_source u k0 l S0)) F) = 0)%R as HN.
    { apply (norm_public s 0) in P1; [|rewrite Ew; exact Hk0]. rewrite Ep in P1. injection P1 as ->. ring. }
    apply norm_zero_agree in HN. unfold get_E. rewrite Ew, Ef.
    apply (si_fixed v (sampled g) k0 alpha (/ m) e0 (tuniform (RtoC m)) (last_source u k0 l S0) Hs F0 I Pa Hb rho Hd Hr).
    eapply vagree_trans; [|exact HN]. apply (de_update (os alpha e0 (last_source u k0 l S0)) (si_next_vagree v (sampled g) k0 alpha (/ m) e0 (tuniform (RtoC m)) (last_source u k0 l S0) Hs F0 Pa Hb)).
    intros c p Hcc Hp. unfold next_field. rewrite (HN c p Hcc Hp). ring.
  Qed.
  Lemma re_ends : (forall S, exists E, solves E S) -> absorbs n (points_of g) (plus_isotropic t chi) 0 ->
    exists s0, new_solution u eps settled thick q = Ok s0 /\ forall l rtol maxiter (w : W), List.Forall keeps_material l -> let s := history u l s0 in let now := last_source u k0 l src in
      (exists c p, (c < n)%nat /\ CSum.inside (points_of g) p /\ now c p <> 0) -> (0 < rtol)%R ->
      exists fuel s', (solve_method fuel s NoneGiven rtol maxiter w = Some (Returned w s') /\ limit_reached maxiter rtol s') \/
        (solve_method fuel s NoneGiven rtol maxiter w = Some (Raised w s' ZeroDivisionError) /\ (vagree n (points_of g) (get_E s') (fun _ _ => 0) \/ previous_update_norm s = Fin 0)).
  Proof.
    intros Hex Hab. destruct (re_parts 0 (Rle_refl 0) Hab) as (s0 & e0 & S0 & alpha & rho & Es & HK & F0 & Pa & Hr & Hd & L0 & HA & HW). exists s0. split; [exact Es|]. intros l rtol maxiter w Hl s now (c & p & Hcn & Hp & HS) Ht.
    pose proof (whole_solvable g v k0 Hg Hdim Hk0) as Hs. pose proof (Rinv_0_lt_compat m Hm) as Hb.
    destruct (re_family 0 e0 S0 alpha rho Hex (Rle_refl 0) F0 Pa Hr Hd L0 HW) as (Hso & Hsh).
    pose proof (kept_history u k0 _ Hso Hsh l S0 s0 HK Hl) as HK'. fold s in HK'.
    assert (prev_norm s = Fin 0 \/ prev_norm s <> Fin 0) as [Z|Z].
    { destruct (prev_norm s) as [x|]; [|right; discriminate]. destruct (Req_EM_T x 0) as [->|ne]; [left; reflexivity|right; congruence]. }
    { exists 1%nat. eexists. right. unfold solve_method. cbn [loop]. rewrite (next_raise s true Z). split; [reflexivity|]. right. unfold previous_update_norm. rewrite Z. f_equal. unfold Rdiv. ring. }
    pose proof HK' as (Ew & Eo & _). destruct (Hex now) as (E & HE).
    pose proof (source_moves v (sampled g) k0 alpha (/ m) e0 (tuniform (RtoC m)) (last_source u k0 l S0) rho c p Hs F0 I Pa Hb Hd Hr Hcn Hp ltac:(rewrite (HA l c p Hcn Hp); exact HS)) as Hmv.
    destruct (si_finishes v (sampled g) k0 alpha (/ m) e0 (tuniform (RtoC m)) (last_source u k0 l S0) Hs F0 I Pa Hb 0 rho L0 Hd Hr (set_prev_norm s Inf) Ew Eo eq_refl E maxiter rtol w (Rle_refl 0) (proj2 (HW l E) HE) Hmv Ht) as (fuel & [(x & EL & En)|(x & EL & i & (Xw & Xo & Xf & _) & Hz & _)]).
    - exists fuel, x. left. unfold solve_method. cbn [chosen]. rewrite (kept_loop k0 _ Hsh _ s fuel _ true w HK' Z), EL. split; [reflexivity|]. apply (ended_limit _ _ _ _ _ _ En).
    - exists fuel, x. right. unfold solve_method. cbn [chosen]. rewrite (kept_loop k0 _ Hsh _ s fuel _ true w HK' Z), EL. split; [reflexivity|]. left. apply vnorm2_zero in Hz. intros c' p' Hc' Hp'. unfold get_E, electric_field. rewrite Xf.
      rewrite (Hz c' p' Hc' Hp'). unfold Cdiv. ring.
  Qed.
  Lemma re_accurate loss : (0 < loss)%R -> absorbs n (points_of g) (plus_isotropic t chi) loss ->
    exists s0 K, new_solution u eps settled thick q = Ok s0 /\ forall l, List.Forall keeps_material l -> let now := last_source u k0 l src in
      exists E, solves E now /\ (forall E', solves E' now -> vagree n (points_of g) E' E) /\
        forall rtol fuel (w w' : W) s', (0 < rtol)%R -> (exists c p, (c < n)%nat /\ CSum.inside (points_of g) p /\ now c p <> 0) ->
          solve_method fuel (history u l s0) NoneGiven rtol None w = Some (Returned w' s') -> (magnitude s' (fun c p => get_E s' c p - E c p)%C <= K * rtol * magnitude s' (get_E s'))%R.
  Proof.
    intros Hl Hab. destruct (re_parts loss (Rlt_le _ _ Hl) Hab) as (s0 & e0 & S0 & alpha & rho & Es & HK & F0 & Pa & Hr & Hd & L0 & HA & HW).
    pose proof (whole_solvable g v k0 Hg Hdim Hk0) as Hs. pose proof (Rinv_0_lt_compat m Hm) as Hb.
    assert (forall l, exists E, solves E (last_source u k0 l src) /\ forall E', solves E' (last_source u k0 l src) -> vagree n (points_of g) E' E) as HU.
    { intros l. destruct (si_error_limit v (sampled g) k0 alpha (/ m) e0 (tuniform (RtoC m)) (last_source u k0 l S0) Hs F0 I Pa Hb loss rho L0 Hd Hr Hl) as (E & _ & _ & HE & Hu & _).
      exists E. split; [apply HW, HE|]. intros E' HE'. apply Hu, HW, HE'. }
    assert (forall S, exists E, solves E S) as Hex. { intros S. destruct (HU [OSetSource S]) as (E & HE & _). exists E. exact HE. }
    destruct (re_family loss e0 S0 alpha rho Hex (Rlt_le _ _ Hl) F0 Pa Hr Hd L0 HW) as (Hso & Hsh).
    exists s0, (4 / Rmin (2 * (loss / (/ m * snd alpha))) (1 - rho * rho))%R. split; [exact Es|]. intros l Hml now. destruct (HU l) as (E & HE & Hun). exists E. split; [exact HE|]. split; [exact Hun|].
    intros rtol fuel w w' y Ht (c & p & Hcn & Hp & HS) Er. set (s := history u l s0) in *.
    pose proof (kept_history u k0 _ Hso Hsh l S0 s0 HK Hml) as HK'. fold s in HK'. pose proof HK' as (Ew & Eo & _).
    assert (prev_norm s <> Fin 0) as Z. { intros Z. destruct fuel; [discriminate|]. unfold solve_method in Er. cbn [loop] in Er. rewrite (next_raise s true Z) in Er. discriminate. }
    unfold solve_method in Er. cbn [chosen] in Er. rewrite (kept_loop k0 _ Hsh _ s fuel _ true w HK' Z) in Er.
    pose proof (source_moves v (sampled g) k0 alpha (/ m) e0 (tuniform (RtoC m)) (last_source u k0 l S0) rho c p Hs F0 I Pa Hb Hd Hr Hcn Hp ltac:(rewrite (HA l c p Hcn Hp); exact HS)) as Hmv.
    destruct (si_finishes v (sampled g) k0 alpha (/ m) e0 (tuniform (RtoC m)) (last_source u k0 l S0) Hs F0 I Pa Hb loss rho L0 Hd Hr (set_prev_norm s Inf) Ew Eo eq_refl E None rtol w (Rlt_le _ _ Hl) (proj2 (HW l E) HE) Hmv Ht) as (fuel' & [(x & EL & Hx)|(x & EL & _)]);
      pose proof (loop_more _ _ _ _ _ _ Er fuel') as P; pose proof (loop_more _ _ _ _ _ _ EL fuel) as Q; rewrite Nat.add_comm, P in Q; [|discriminate Q].
    injection Q as _ ->. exact (me_error v (sampled g) k0 alpha (/ m) e0 (tuniform (RtoC m)) Hs F0 I Pa Hb loss rho L0 Hd Hr (last_source u k0 l S0) _ E rtol x Hl (proj2 (HW l E) HE) Ht Hx).
  Qed.
  (** When the source is switched off. *)
  Lemma re_never loss : (0 < loss)%R -> absorbs n (points_of g) (plus_isotropic t chi) loss ->
    exists s0 tol, new_solution u eps settled thick q = Ok s0 /\ (0 < tol)%R /\ forall l, List.Forall keeps_material l -> let s := history u l s0 in
      vagree n (points_of g) (last_source u k0 l src) (fun _ _ => 0) -> (exists c p, (c < n)%nat /\ CSum.inside (points_of g) p /\ get_E s c p <> 0) ->
      forall rtol fuel (w w' : W) s', (0 < rtol < tol)%R -> solve_method fuel s NoneGiven rtol None w <> Some (Returned w' s').
  Proof.
    intros Hl Hab. destruct (re_parts loss (Rlt_le _ _ Hl) Hab) as (s0 & e0 & S0 & alpha & rho & Es & HK & F0 & Pa & Hr & Hd & L0 & HA & HW).
    pose proof (whole_solvable g v k0 Hg Hdim Hk0) as Hs. pose proof (Rinv_0_lt_compat m Hm) as Hb.
    assert (forall S, exists E, solves E S) as Hex.
    { intros S. destruct (si_error_limit v (sampled g) k0 alpha (/ m) e0 (tuniform (RtoC m)) S Hs F0 I Pa Hb loss rho L0 Hd Hr Hl) as (E & _ & _ & HE & _). exists E. exact (proj1 (HW [OSetSource S] E) HE). }
    destruct (re_family loss e0 S0 alpha rho Hex (Rlt_le _ _ Hl) F0 Pa Hr Hd L0 HW) as (Hso & Hsh).
    exists s0, (Rmin (2 * (loss / (/ m * snd alpha))) (1 - rho * rho) / 4)%R. split; [exact Es|]. split; [apply (si_tolerance alpha (/ m) Pa Hb loss rho Hr Hl)|].
    intros l Hml s H0 (c & p & Hcn & Hp & HE0) rtol fuel w w' y Hrt Er.
    pose proof (kept_history u k0 _ Hso Hsh l S0 s0 HK Hml) as HK'. fold s in HK'. pose proof HK' as (Ew & Eo & _).
    assert (prev_norm s <> Fin 0) as Z. { intros Z. destruct fuel; [discriminate|]. unfold solve_method in Er. cbn [loop] in Er. rewrite (next_raise s true Z) in Er. discriminate. }
    unfold solve_method in Er. cbn [chosen] in Er. rewrite (kept_loop k0 _ Hsh _ s fuel _ true w HK' Z) in Er.
    assert (wave_equation v (sampled g) k0 (/ m) e0 none (last_source u k0 l S0)) as W0.
    { intros c' p' Hcn' Hp'. rewrite (HA l c' p' Hcn' Hp'), (H0 c' p' Hcn' Hp'), tapply_none, curl_curl_none. ring. }
    pose proof (si_still v (sampled g) k0 alpha (/ m) e0 (tuniform (RtoC m)) (last_source u k0 l S0) Hs F0 I Pa Hb none W0) as Hz.
    rewrite (none_is (fun c p => RtoC (k0 * k0) * none c p)) in Hz by (intros; unfold none; ring).
    refine (si_never v (sampled g) k0 alpha (/ m) e0 (tuniform (RtoC m)) (last_source u k0 l S0) Hs F0 Pa Hb loss rho L0 Hd Hr (set_prev_norm s Inf) Ew Eo eq_refl rtol Hl Hz Hrt _ fuel w w' y Er).
    intros N. apply HE0. apply norm_zero_agree in N. unfold get_E, electric_field. cbn [field set_prev_norm] in N. rewrite (N c p Hcn Hp). unfold Cdiv. ring.
  Qed.
End Results.
