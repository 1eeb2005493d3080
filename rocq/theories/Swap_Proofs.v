(** Assigning epsilon and solving. *)
From Coq Require Import Reals Lra Lia List Arith ZArith Bool.
Require Import Verif.Base Verif.Num Verif.Grid_Model Verif.Grid_Spec Verif.Grid_Proofs Verif.Bound_Model Verif.Setup_Model Verif.Entry_Model Verif.Entry_Spec Verif.Entry_Proofs.
Require Import Verif.Array_Glue.
Require Import Verif.Cplx Verif.CSum Verif.Field Verif.Fourier_Model Verif.Fourier_Spec Verif.Vec_Model Verif.Vec_Spec Verif.Vec_Proofs Verif.Vec_Grid Verif.Solver_Model Verif.Solver_Spec Verif.Solver_Proofs.
Require Import Verif.Derived_Model Verif.Derived_Spec Verif.Choice_Model Verif.Choice_Proofs Verif.Choice_Construct Verif.Array_Model Verif.Array_Spec.
Require Import Verif.Material_Model Verif.Material_Spec Verif.Solver_Convergence Verif.Solver_Limit Verif.Solver_Choice Verif.Choice_Gain Verif.Run_Model Verif.Run_Spec Verif.Run_Proofs Verif.Run_Solve Verif.Run_Zero Verif.Run_Glue Verif.Run_Converge.
Require Verif.Run_Epsilon Verif.Array_Proofs.
Require Import Verif.Whole_Model Verif.Whole_Spec Verif.Whole_Proofs Verif.Whole_Results Verif.Warm_Model Verif.Warm_Proofs Verif.Reuse_Proofs Verif.Swap_Model Verif.Swap_Spec.
Import ListNotations.
Local Open Scope R_scope.
Local Open Scope C_scope.

(** The chosen constants. *)
Lemma choose_uniform eps g k0 v epsilon m settled thick : (0 < eps)%R -> (2 * eps <= 1)%R -> fits v epsilon -> absorbs (if v then 3 else 1) (rshape g) epsilon 0 -> (0 < m)%R ->
  (800 * sqrt eps * (m * m) < 1)%R ->
  exists alpha rho, choose eps (rshape g) (rstep g) k0 epsilon tzero tzero (tuniform (RtoC m)) settled thick = (alpha, (/ m)%R) /\
    (0 < snd alpha)%R /\ (0 <= rho < 1)%R /\ deviates (if v then 3 else 1) (rshape g) epsilon (/ m) (fst alpha) (rho * snd alpha).
Proof.
  intros He H1 Hf Ha Hm Hq. destruct (construct_alpha eps g k0 v epsilon m settled thick none He H1 Hf Ha Hm Hq) as (alpha & rho & E & Pa & Hr & Hd).
  exists alpha, rho. refine (conj _ (conj Pa (conj Hr Hd))). unfold Choice_Model.construct in E. destruct (choose _ _ _ _ _ _ _ _ _ _) as [a b].
  pose proof (f_equal o_alpha E) as E1. pose proof (f_equal o_beta E) as E2. cbn in E1, E2. rewrite E1, E2. reflexivity.
Qed.
Lemma perform_bound_chi u s a : bound_chi (perform u s a) = bound_chi s.
Proof. apply (Run_Epsilon.history_bound u [a] s). Qed.

(** The bound that new_solution stores. *)
Lemma new_bound u eps settled thick q g chi s : asked_boundary g q chi -> new_solution u eps settled thick q = Ok s ->
  match bound_chi s with None => forall p, chi p = 0 | Some x => forall p, CSum.inside (points_of g) p -> x p = chi p end.
Proof.
  intros Hchi E. pose proof (read_boundary g q chi Hchi) as Hb. unfold new_solution in E. repeat (apply bind_ok in E; destruct E as (? & ? & E)).
  injection E as <-. cbn [bound_chi]. destruct (q_bound q).
  - destruct Hb as (a & Ea & Hs).
    match goal with H : bound_array _ = Ok ?y |- _ => rewrite Ea in H; injection H as <- end. intros p1 Hp1. rewrite <- (proj2 Hs p1 Hp1). apply Array_Proofs.bget_same. unfold adim. rewrite (Array_Proofs.inside_length _ _ Hp1), (Array_Proofs.spatial_length _ _ (proj1 Hs)). reflexivity.
  - destruct Hb as (Ea & Hz). match goal with H : bound_array _ = Ok ?y |- _ => rewrite Ea in H; injection H as <- end. exact Hz.
Qed.
Lemma less_bound_agree v gs (chi : list nat -> C) (b : option sfield) t : match b with None => forall p, chi p = 0 | Some x => forall p, CSum.inside gs p -> x p = chi p end ->
  tagree gs (less_bound b t) (minus_isotropic t chi) /\ (fits v t -> fits v (less_bound b t)).
Proof.
  intros H. destruct b as [x|]; destruct t as [f|mm]; cbn; (split; [|exact (fun F => F)]); intros.
  - rewrite H by assumption. ring.
  - rewrite H by assumption. unfold eye. destruct (_ =? _)%nat; ring.
  - rewrite H. ring.
  - rewrite H. destruct (_ =? _)%nat; ring.
Qed.
Lemma admissible_agree v g k0 m t t' : fits v t -> tagree (rshape g) t t' -> admissible v g k0 m t' -> admissible v g k0 m t.
Proof.
  intros F A (H1 & H2). split; [exact (agree_absorbs v t t' _ F A 0 H1)|]. intros S. destruct (H2 S) as (E & HE). exists E.
  apply (agree_wave v t t' _ F A g k0 (/ m) E S S eq_refl (fun _ _ _ _ => eq_refl)). exact HE.
Qed.

Section Results.
  Variables (W : Type) (u : si) (eps : R) (settled : R * R) (thick : option R) (q : request) (g : grid RN) (crd : nat -> list R) (v : bool) (k0 m : R)
    (src : vfield) (t : tensor) (chi : list nat -> C).
  Let n := (if v then 3 else 1)%nat.
  Let gr := sampled g.
  Hypothesis He : (0 < eps)%R.
  Hypothesis H1 : (2 * eps <= 1)%R.
  Hypothesis Hm : (0 < m)%R.
  Hypothesis Hq : (800 * sqrt eps * (m * m) < 1)%R.
  Hypothesis Hc : (0 < c_light u)%R.
  Hypothesis Hgrid : q_grid q = AGrid g.
  Hypothesis Hg : Entry_Spec.spatial g.
  Hypothesis Hdim : v = true -> (ndim RN g <= 3)%nat.
  Hypothesis Hcrd : forall i, (i < ndim RN g)%nat -> coordinates g i = Ok (crd i).
  Hypothesis Hxi : q_xi q = GivenArray (number 0).
  Hypothesis Hzeta : q_zeta q = GivenArray (number 0).
  Hypothesis Hmu : q_mu q = GivenArray (number (RtoC m)).
  Hypothesis Hk : asked_wavenumber u q k0.
  Hypothesis Hk0 : k0 <> 0%R.
  Hypothesis Hkind : asked_kind g q v.
  Hypothesis Hsrc : asked_source u g crd k0 q v src.
  Hypothesis Hmed : asked_medium g crd q t.
  Hypothesis Hchi : asked_boundary g q chi.
  Hypothesis Hfit : fits v t.
  Hypothesis Hadm : admissible v gr k0 m (plus_isotropic t chi).
  Let os (alpha : C) (e0 : tensor) (S : vfield) := prepare (scaled k0 gr) v false alpha (/ m) e0 tzero tzero (tuniform (RtoC m)) S.
  Let solves (e : tensor) (E S : vfield) := wave_equation v gr k0 (/ m) e E S.
  Let Hs : solvable v gr k0 := whole_solvable g v k0 Hg Hdim Hk0.
  Let Hb : (0 < / m)%R := Rinv_0_lt_compat m Hm.

  (** Constants with which the iteration works. *)
  Definition tuned (e : tensor) (alpha : C) (rho : R) : Prop :=
    fits v e /\ (0 < snd alpha)%R /\ (0 <= rho < 1)%R /\ deviates n (points_of g) e (/ m) (fst alpha) (rho * snd alpha) /\ admissible v gr k0 m e.
  Lemma tuned_family e alpha rho : tuned e alpha rho ->
    (forall S S', with_source (os alpha e S) S' = os alpha e S') /\ (forall S F, norm (os alpha e S) (update (os alpha e S) F) <> 0%R -> (norm (os alpha e S) (update (os alpha e S) (next_field (os alpha e S) F)) < norm (os alpha e S) (update (os alpha e S) F))%R).
  Proof.
    intros (F0 & Pa & Hr & Hd & L0 & Hex). split.
    - exact (me_source v gr k0 alpha (/ m) e (tuniform (RtoC m)) Pa Hb).
    - intros S F. apply (me_shrinks v gr k0 alpha (/ m) e (tuniform (RtoC m)) Hs F0 I Pa Hb 0 rho L0 (Rle_refl 0) Hd Hr S F). apply Hex.
  Qed.
  (** What holds after every step. *)
  Definition steady (b : option sfield) (S : vfield) (s : solution) : Prop :=
    bound_chi s = b /\ exists e alpha rho, tuned e alpha rho /\ kept k0 (os alpha e) S s.
  Lemma steady_do b S s a : steady b S s -> keeps_material a -> steady b (assigned_source u k0 S a) (perform u s a).
  Proof.
    intros (Eb & e & alpha & rho & HT & HK) Ha. split; [rewrite perform_bound_chi; exact Eb|]. exists e, alpha, rho. split; [exact HT|].
    destruct (tuned_family e alpha rho HT) as (Hso & Hsh). apply kept_perform; assumption.
  Qed.
  Lemma steady_assign b S s e settled' : steady b S s -> fits v (less_bound b e) -> absorbs n (points_of g) (less_bound b e) 0 ->
    forall alpha rho, choose eps (points_of g) (rstep gr) k0 (less_bound b e) tzero tzero (tuniform (RtoC m)) settled' thick = (alpha, (/ m)%R) ->
    admissible v gr k0 m (less_bound b e) -> tuned (less_bound b e) alpha rho ->
    let s' := assign_epsilon eps gr thick s e settled' in bound_chi s' = b /\ kept k0 (os alpha (less_bound b e)) S s'.
  Proof.
    intros (Eb & e1 & alpha1 & rho1 & (F1 & P1 & R1 & D1 & A1) & (Ew & Eo & Ep)) Hf Ha alpha rho Ec Had HT s'.
    assert (s' = set_prev_norm (set_operators s (os alpha (less_bound b e) S)) Inf) as E'.
    { unfold s', assign_epsilon. rewrite Ew, Eo, Eb. assert (RtoC m <> 0) as Hm0 by (intros Z; apply RtoC_inj in Z; lra).
      assert (stored_mu (os alpha1 e1 S) = tuniform (RtoC m)) as Emu by (unfold os; apply Run_Epsilon.stored_mu_is; [lra|lra|exact Hm0]).
      rewrite Emu. change (stored_xi (os alpha1 e1 S)) with tzero. change (stored_zeta (os alpha1 e1 S)) with tzero. change (rshape gr) with (points_of g). rewrite Ec, not_magnetic.
      unfold set_epsilon. rewrite Eo, Eb, Emu. change (stored_xi (os alpha1 e1 S)) with tzero. change (stored_zeta (os alpha1 e1 S)) with tzero. f_equal. f_equal.
      assert (get_source s = S) as -> by (apply vfield_ext; intros c p; unfold get_source; rewrite Eo; apply source_prepare; lra).
      reflexivity. }
    rewrite E'. split; [exact Eb|]. split; [exact Ew|]. split; [reflexivity|]. left. reflexivity.
  Qed.
  Lemma steady_steps (b : option sfield) l : match b with None => forall p, chi p = 0 | Some x => forall p, CSum.inside (points_of g) p -> x p = chi p end ->
    forall S s, steady b S s -> List.Forall (admissible_step v gr k0 m chi) l -> steady b (latest_source u k0 l S) (steps u eps gr thick l s).
  Proof.
    intros Hbc. induction l as [|a l IH]; intros S s H Hl; [exact H|]. inversion Hl as [|? ? Ha Hl']; subst. cbn [steps latest_source fold_left]. apply IH; [|exact Hl'].
    destruct a as [a|e settled']; cbn [perform_step step_source admissible_step] in *; [apply steady_do; assumption|]. destruct Ha as (Hf & Had).
    destruct (less_bound_agree v (points_of g) chi b e Hbc) as (Hag & Hft). pose proof (admissible_agree v gr k0 m _ _ (Hft Hf) Hag Had) as Had'.
    destruct (choose_uniform eps gr k0 v _ m settled' thick He H1 (Hft Hf) (proj1 Had') Hm Hq) as (alpha & rho & Ec & Pa & Hr & Hd).
    assert (tuned (less_bound b e) alpha rho) as HT by exact (conj (Hft Hf) (conj Pa (conj Hr (conj Hd Had')))).
    destruct (steady_assign b S s e settled' H (Hft Hf) (proj1 Had') alpha rho Ec Had' HT) as (Q1 & Q2). split; [exact Q1|]. exists (less_bound b e), alpha, rho. split; [exact HT|exact Q2].
  Qed.
  Lemma sw_start : exists s0 S0 b, new_solution u eps settled thick q = Ok s0 /\ steady b S0 s0 /\ vagree n (points_of g) S0 src /\
    match b with None => forall p, chi p = 0 | Some x => forall p, CSum.inside (points_of g) p -> x p = chi p end.
  Proof.
    destruct (re_parts u eps settled thick q g crd v k0 m src t chi He H1 Hm Hq Hc Hgrid Hg Hcrd Hxi Hzeta Hmu Hk Hkind Hsrc Hmed Hchi Hfit 0 (Rle_refl 0) (proj1 Hadm)) as (s0 & e0 & S0 & alpha & rho & Es & HK & F0 & Pa & Hr & Hd & L0 & HA & HW).
    exists s0, S0, (bound_chi s0). refine (conj Es (conj (conj eq_refl _) (conj (HA []) (new_bound u eps settled thick q g chi s0 Hchi Es)))).
    exists e0, alpha, rho. split; [|exact HK]. refine (conj F0 (conj Pa (conj Hr (conj Hd (conj L0 _))))). intros S. destruct (proj2 Hadm S) as (E & HE). exists E. exact (proj2 (HW [OSetSource S] E) HE).
  Qed.

  (** After the assignment. *)
  Lemma latest_agree l : forall S S' : vfield, vagree n (points_of g) S S' -> vagree n (points_of g) (latest_source u k0 l S) (latest_source u k0 l S').
  Proof.
    induction l as [|a l IH]; intros S S' H; [exact H|]. apply IH. destruct a as [a|]; [|exact H]. exact (last_source_agree u k0 n (points_of g) [a] S S' H).
  Qed.
  Lemma sw_assigned e settled' loss : fits v e -> (0 <= loss)%R -> absorbs n (points_of g) (minus_isotropic e chi) loss -> admissible v gr k0 m (minus_isotropic e chi) ->
    exists s0 S0 e1 alpha rho, new_solution u eps settled thick q = Ok s0 /\ tuned e1 alpha rho /\ absorbs n (points_of g) e1 loss /\
      (forall l, vagree n (points_of g) (latest_source u k0 l S0) (latest_source u k0 l src)) /\
      (forall E S S', vagree n (points_of g) S S' -> solves e1 E S <-> solves (minus_isotropic e chi) E S') /\
      forall l1 l2, List.Forall (admissible_step v gr k0 m chi) l1 -> List.Forall keeps_material l2 ->
        kept k0 (os alpha e1) (last_source u k0 l2 (latest_source u k0 l1 S0)) (history u l2 (assign_epsilon eps gr thick (steps u eps gr thick l1 s0) e settled')).
  Proof.
    intros Hf Hl Hab Had. destruct sw_start as (s0 & S0 & b & Es & HS & HA & Hbc).
    destruct (less_bound_agree v (points_of g) chi b e Hbc) as (Hag & Hft). specialize (Hft Hf). pose proof (admissible_agree v gr k0 m _ _ Hft Hag Had) as Had'.
    destruct (choose_uniform eps gr k0 v _ m settled' thick He H1 Hft (proj1 Had') Hm Hq) as (alpha & rho & Ec & Pa & Hr & Hd).
    assert (tuned (less_bound b e) alpha rho) as HT by exact (conj Hft (conj Pa (conj Hr (conj Hd Had')))).
    exists s0, S0, (less_bound b e), alpha, rho.
    refine (conj Es (conj HT (conj (agree_absorbs v _ _ _ Hft Hag loss Hab) (conj (fun l => latest_agree l _ _ HA) (conj (fun E S S' HSS => agree_wave v _ _ _ Hft Hag gr k0 (/ m) E S S' eq_refl HSS) _))))).
    intros l1 l2 Hl1 Hl2. pose proof (steady_steps b l1 Hbc S0 s0 HS Hl1) as HS1. destruct (tuned_family _ alpha rho HT) as (Hso & Hsh).
    destruct (steady_assign b _ _ e settled' HS1 Hft (proj1 Had') alpha rho Ec Had' HT) as (_ & HK). exact (kept_history u k0 _ Hso Hsh l2 _ _ HK Hl2).
  Qed.
  Lemma absorbing_admissible e loss : fits v e -> (0 < loss)%R -> absorbs n (points_of g) e loss -> admissible v gr k0 m e.
  Proof.
    intros Hf Hl Hab. pose proof (absorbs_weaken _ _ _ _ 0 (Rlt_le _ _ Hl) Hab) as H0. split; [exact H0|].
    destruct (choose_uniform eps gr k0 v e m settled thick He H1 Hf H0 Hm Hq) as (alpha & rho & _ & Pa & Hr & Hd). intros S.
    destruct (si_error_limit v gr k0 alpha (/ m) e (tuniform (RtoC m)) S Hs Hf I Pa Hb loss rho Hab Hd Hr Hl) as (E & _ & _ & HE & _). exists E. exact HE.
  Qed.

  Lemma sw_ends e settled' : fits v e -> admissible v gr k0 m (minus_isotropic e chi) ->
    exists s0, new_solution u eps settled thick q = Ok s0 /\ forall l1 l2 rtol maxiter (w : W), List.Forall (admissible_step v gr k0 m chi) l1 -> List.Forall keeps_material l2 ->
      let s := history u l2 (assign_epsilon eps gr thick (steps u eps gr thick l1 s0) e settled') in let now := last_source u k0 l2 (latest_source u k0 l1 src) in
      (exists c p, (c < n)%nat /\ CSum.inside (points_of g) p /\ now c p <> 0) -> (0 < rtol)%R ->
      exists fuel s', (solve_method fuel s NoneGiven rtol maxiter w = Some (Returned w s') /\ limit_reached maxiter rtol s') \/
        (solve_method fuel s NoneGiven rtol maxiter w = Some (Raised w s' ZeroDivisionError) /\ (vagree n (points_of g) (get_E s') (fun _ _ => 0) \/ previous_update_norm s = Fin 0)).
  Proof.
    intros Hf Had. destruct (sw_assigned e settled' 0 Hf (Rle_refl 0) (proj1 Had) Had) as (s0 & S0 & e1 & alpha & rho & Es & HT & L0 & HA & HW & HK). exists s0. split; [exact Es|].
    intros l1 l2 rtol maxiter w Hl1 Hl2 s now (c & p & Hcn & Hp & HS) Ht. specialize (HK l1 l2 Hl1 Hl2). fold s in HK.
    destruct (tuned_family _ alpha rho HT) as (Hso & Hsh). destruct HT as (F0 & Pa & Hr & Hd & _ & Hex).
    pose proof (last_source_agree u k0 n (points_of g) l2 _ _ (HA l1)) as HA2. fold now in HA2.
    assert (prev_norm s = Fin 0 \/ prev_norm s <> Fin 0) as [Z|Z].
    { destruct (prev_norm s) as [x|]; [|right; discriminate]. destruct (Req_EM_T x 0) as [->|ne]; [left; reflexivity|right; congruence]. }
    { exists 1%nat. eexists. right. unfold solve_method. cbn [loop]. rewrite (next_raise s true Z). split; [reflexivity|]. right. unfold previous_update_norm. rewrite Z. f_equal. unfold Rdiv. ring. }
    pose proof HK as (Ew & Eo & _). set (S1 := last_source u k0 l2 (latest_source u k0 l1 S0)) in *. destruct (Hex S1) as (E & HE).
    pose proof (source_moves v gr k0 alpha (/ m) e1 (tuniform (RtoC m)) S1 rho c p Hs F0 I Pa Hb Hd Hr Hcn Hp ltac:(rewrite (HA2 c p Hcn Hp); exact HS)) as Hmv.
    destruct (si_finishes v gr k0 alpha (/ m) e1 (tuniform (RtoC m)) S1 Hs F0 I Pa Hb 0 rho L0 Hd Hr (set_prev_norm s Inf) Ew Eo eq_refl E maxiter rtol w (Rle_refl 0) HE Hmv Ht) as (fuel & [(x & EL & En)|(x & EL & i & (Xw & Xo & Xf & _) & Hz & _)]).
    - exists fuel, x. left. unfold solve_method. cbn [chosen]. rewrite (kept_loop k0 _ Hsh _ s fuel _ true w HK Z), EL. split; [reflexivity|]. apply (ended_limit _ _ _ _ _ _ En).
    - exists fuel, x. right. unfold solve_method. cbn [chosen]. rewrite (kept_loop k0 _ Hsh _ s fuel _ true w HK Z), EL. split; [reflexivity|]. left. apply vnorm2_zero in Hz. intros c' p' Hc' Hp'. unfold get_E, electric_field. rewrite Xf.
      rewrite (Hz c' p' Hc' Hp'). unfold Cdiv. ring.
  Qed.
  Lemma sw_accurate e settled' loss : fits v e -> (0 < loss)%R -> absorbs n (points_of g) (minus_isotropic e chi) loss ->
    exists s0 K, new_solution u eps settled thick q = Ok s0 /\ forall l1 l2, List.Forall (admissible_step v gr k0 m chi) l1 -> List.Forall keeps_material l2 ->
      let s := history u l2 (assign_epsilon eps gr thick (steps u eps gr thick l1 s0) e settled') in let now := last_source u k0 l2 (latest_source u k0 l1 src) in
      exists E, solves (minus_isotropic e chi) E now /\ (forall E', solves (minus_isotropic e chi) E' now -> vagree n (points_of g) E' E) /\
        forall rtol fuel (w w' : W) s', (0 < rtol)%R -> (exists c p, (c < n)%nat /\ CSum.inside (points_of g) p /\ now c p <> 0) ->
          solve_method fuel s NoneGiven rtol None w = Some (Returned w' s') -> (magnitude s' (fun c p => get_E s' c p - E c p)%C <= K * rtol * magnitude s' (get_E s'))%R.
  Proof.
    intros Hf Hl Hab. assert (fits v (minus_isotropic e chi)) as Hf' by (apply fits_plus; exact Hf). pose proof (absorbing_admissible _ loss Hf' Hl Hab) as Had.
    destruct (sw_assigned e settled' loss Hf (Rlt_le _ _ Hl) Hab Had) as (s0 & S0 & e1 & alpha & rho & Es & HT & L0 & HA & HW & HK).
    exists s0, (4 / Rmin (2 * (loss / (/ m * snd alpha))) (1 - rho * rho))%R. split; [exact Es|].
    intros l1 l2 Hl1 Hl2 s now. specialize (HK l1 l2 Hl1 Hl2). fold s in HK.
    destruct (tuned_family _ alpha rho HT) as (Hso & Hsh). destruct HT as (F0 & Pa & Hr & Hd & _ & Hex).
    pose proof (last_source_agree u k0 n (points_of g) l2 _ _ (HA l1)) as HA2. fold now in HA2. set (S1 := last_source u k0 l2 (latest_source u k0 l1 S0)) in *.
    destruct (si_error_limit v gr k0 alpha (/ m) e1 (tuniform (RtoC m)) S1 Hs F0 I Pa Hb loss rho L0 Hd Hr Hl) as (E & _ & _ & HE & Hun & _).
    exists E. split; [exact (proj1 (HW E S1 now HA2) HE)|]. split; [intros E' HE'; exact (Hun E' (proj2 (HW E' S1 now HA2) HE'))|].
    intros rtol fuel w w' y Ht (c & p & Hcn & Hp & HS) Er. pose proof HK as (Ew & Eo & _).
    assert (prev_norm s <> Fin 0) as Z. { intros Z. destruct fuel; [discriminate|]. unfold solve_method in Er. cbn [loop] in Er. rewrite (next_raise s true Z) in Er. discriminate. }
    unfold solve_method in Er. cbn [chosen] in Er. rewrite (kept_loop k0 _ Hsh _ s fuel _ true w HK Z) in Er.
    pose proof (source_moves v gr k0 alpha (/ m) e1 (tuniform (RtoC m)) S1 rho c p Hs F0 I Pa Hb Hd Hr Hcn Hp ltac:(rewrite (HA2 c p Hcn Hp); exact HS)) as Hmv.
    destruct (si_finishes v gr k0 alpha (/ m) e1 (tuniform (RtoC m)) S1 Hs F0 I Pa Hb loss rho L0 Hd Hr (set_prev_norm s Inf) Ew Eo eq_refl E None rtol w (Rlt_le _ _ Hl) HE Hmv Ht) as (fuel' & [(x & EL & Hx)|(x & EL & _)]);
      pose proof (loop_more _ _ _ _ _ _ Er fuel') as P; pose proof (loop_more _ _ _ _ _ _ EL fuel) as Q; rewrite Nat.add_comm, P in Q; [|discriminate Q].
    injection Q as _ ->. exact (me_error v gr k0 alpha (/ m) e1 (tuniform (RtoC m)) Hs F0 I Pa Hb loss rho L0 Hd Hr S1 _ E rtol x Hl HE Ht Hx).
  Qed.
End Results.

(** Without a bound. *)
Lemma minus_none gs t : tagree gs t (minus_isotropic t (fun _ => 0)) /\ tagree gs (minus_isotropic t (fun _ => 0)) t.
Proof. destruct t as [f|mm]; cbn; split; intros; try destruct (_ =? _)%nat; ring. Qed.
Lemma plus_none gs t : tagree gs (plus_isotropic t (fun _ => 0)) t.
Proof. destruct t as [f|mm]; cbn; intros; try destruct (_ =? _)%nat; ring. Qed.
(** Adding and subtracting differ. *)
Lemma isotropic_apply (v : bool) t (chi : list nat -> C) (E : vfield) c p : (c < if v then 3 else 1)%nat -> fits v t -> tapply (plus_isotropic t chi) E c p = tapply t E c p + chi p * E c p.
Proof.
  intros Hc Hf. destruct t as [f|mm]; cbn [plus_isotropic tapply]; [ring|]. destruct v; [|discriminate Hf].
  rewrite (csum_ext 3 _ (fun j => mm c j p * E j p + (if (c =? j)%nat then chi p * E j p else 0))) by (intros j _; destruct (c =? j)%nat; ring). rewrite csum_plus. f_equal.
  destruct c as [|[|[|c]]]; [| | |lia]; unfold csum; cbn; ring.
Qed.
Lemma minus_not_plus (v : bool) g k0 b t (chi : list nat -> C) (E S : vfield) c p : k0 <> 0%R -> fits v t -> (c < if v then 3 else 1)%nat -> CSum.inside (rshape g) p -> chi p <> 0 -> E c p <> 0 ->
  wave_equation v g k0 b (minus_isotropic t chi) E S -> ~ wave_equation v g k0 b (plus_isotropic t chi) E S.
Proof.
  intros Hk Hf Hc Hp Hx HE H H'. specialize (H c p Hc Hp). specialize (H' c p Hc Hp). cbv beta in H, H'. unfold minus_isotropic in H. rewrite (isotropic_apply v _ _ _ _ _ Hc Hf) in H. rewrite (isotropic_apply v _ _ _ _ _ Hc Hf) in H'.
  assert (RtoC (k0 * k0) * (chi p * E c p + chi p * E c p) = 0) as Z.
  { rewrite <- H' in H. match type of H with ?a - ?k * (?x + _) = _ => transitivity ((a - k * (x + - chi p * E c p)) - (a - k * (x + chi p * E c p))); [ring|rewrite H; ring] end. }
  assert (RtoC (k0 * k0) <> 0) as Q by (intros Q; apply RtoC_inj in Q; nra).
  assert (chi p * E c p <> 0) as N by (apply Cmult_neq_0; assumption).
  assert (RtoC 2 <> 0) as T by (intros e; apply RtoC_inj in e; lra).
  replace (chi p * E c p + chi p * E c p) with (RtoC 2 * (chi p * E c p)) in Z by (apply injective_projections; simpl; ring). exact (Cmult_neq_0 _ _ Q (Cmult_neq_0 _ _ T N) Z).
Qed.

(** Without a bound, and with one. *)
Lemma sn_accurate : forall (W : Type) u eps settled thick q g crd v k0 m src t,
  (0 < eps)%R -> (2 * eps <= 1)%R -> (0 < m)%R -> (800 * sqrt eps * (m * m) < 1)%R -> (0 < c_light u)%R ->
  q_grid q = AGrid g -> Entry_Spec.spatial g -> (v = true -> (ndim RN g <= 3)%nat) -> (forall i, (i < ndim RN g)%nat -> coordinates g i = Ok (crd i)) ->
  q_xi q = GivenArray (number 0) -> q_zeta q = GivenArray (number 0) -> q_mu q = GivenArray (number (RtoC m)) -> asked_wavenumber u q k0 -> k0 <> 0%R -> asked_kind g q v -> asked_source u g crd k0 q v src ->
  asked_medium g crd q t -> q_bound q = None -> fits v t ->
  let n := (if v then 3 else 1)%nat in
  admissible v (sampled g) k0 m t ->
  forall e settled' loss, fits v e -> (0 < loss)%R -> absorbs n (points_of g) e loss ->
  exists s0 K, new_solution u eps settled thick q = Ok s0 /\ forall l1 l2, List.Forall (admissible_step v (sampled g) k0 m (fun _ => 0)) l1 -> List.Forall keeps_material l2 ->
    let s := history u l2 (assign_epsilon eps (sampled g) thick (steps u eps (sampled g) thick l1 s0) e settled') in let now := last_source u k0 l2 (latest_source u k0 l1 src) in
    exists E, wave_equation v (sampled g) k0 (/ m) e E now /\ (forall E', wave_equation v (sampled g) k0 (/ m) e E' now -> vagree n (points_of g) E' E) /\
      forall rtol fuel (w w' : W) s', (0 < rtol)%R -> (exists c p, (c < n)%nat /\ CSum.inside (points_of g) p /\ now c p <> 0) ->
        solve_method fuel s NoneGiven rtol None w = Some (Returned w' s') -> (magnitude s' (fun c p => get_E s' c p - E c p)%C <= K * rtol * magnitude s' (get_E s'))%R.
Proof.
  intros W u eps settled thick q g crd v k0 m src t He H1 Hm Hq Hc Hgrid Hg Hdim Hcrd Hxi Hzeta Hmu Hk Hk0 Hkind Hsrc Hmed Hb Hfit n Had e settled' loss Hf Hl Hab.
  assert (asked_boundary g q (fun _ => 0)) as Hchi by (unfold asked_boundary; rewrite Hb; reflexivity).
  destruct (minus_none (points_of g) e) as (M1 & M2).
  destruct (sw_accurate W u eps settled thick q g crd v k0 m src t (fun _ => 0) He H1 Hm Hq Hc Hgrid Hg Hdim Hcrd Hxi Hzeta Hmu Hk Hk0 Hkind Hsrc Hmed Hchi Hfit
    (admissible_agree v (sampled g) k0 m _ t (fits_plus v t _ Hfit) (plus_none _ t) Had) e settled' loss Hf Hl
    (agree_absorbs v _ e _ (fits_plus v e _ Hf) M2 loss Hab)) as (s0 & K & Es & H).
  exists s0, K. split; [exact Es|]. intros l1 l2 Hl1 Hl2 s now. destruct (H l1 l2 Hl1 Hl2) as (E & HE & Hun & HR). exists E.
  pose proof (fun E => agree_wave v e _ _ Hf M1 (sampled g) k0 (/ m) E now now eq_refl (fun _ _ _ _ => eq_refl)) as HW.
  refine (conj (proj2 (HW E) HE) (conj (fun E' HE' => Hun E' (proj1 (HW E') HE')) HR)).
Qed.
Lemma sn_ends : forall (W : Type) u eps settled thick q g crd v k0 m src t,
  (0 < eps)%R -> (2 * eps <= 1)%R -> (0 < m)%R -> (800 * sqrt eps * (m * m) < 1)%R -> (0 < c_light u)%R ->
  q_grid q = AGrid g -> Entry_Spec.spatial g -> (v = true -> (ndim RN g <= 3)%nat) -> (forall i, (i < ndim RN g)%nat -> coordinates g i = Ok (crd i)) ->
  q_xi q = GivenArray (number 0) -> q_zeta q = GivenArray (number 0) -> q_mu q = GivenArray (number (RtoC m)) -> asked_wavenumber u q k0 -> k0 <> 0%R -> asked_kind g q v -> asked_source u g crd k0 q v src ->
  asked_medium g crd q t -> q_bound q = None -> fits v t ->
  let n := (if v then 3 else 1)%nat in
  admissible v (sampled g) k0 m t ->
  forall e settled', fits v e -> admissible v (sampled g) k0 m e ->
  exists s0, new_solution u eps settled thick q = Ok s0 /\ forall l1 l2 rtol maxiter (w : W), List.Forall (admissible_step v (sampled g) k0 m (fun _ => 0)) l1 -> List.Forall keeps_material l2 ->
    let s := history u l2 (assign_epsilon eps (sampled g) thick (steps u eps (sampled g) thick l1 s0) e settled') in let now := last_source u k0 l2 (latest_source u k0 l1 src) in
    (exists c p, (c < n)%nat /\ CSum.inside (points_of g) p /\ now c p <> 0) -> (0 < rtol)%R ->
    exists fuel s', (solve_method fuel s NoneGiven rtol maxiter w = Some (Returned w s') /\ limit_reached maxiter rtol s') \/
      (solve_method fuel s NoneGiven rtol maxiter w = Some (Raised w s' ZeroDivisionError) /\ (vagree n (points_of g) (get_E s') (fun _ _ => 0) \/ previous_update_norm s = Fin 0)).
Proof.
  intros W u eps settled thick q g crd v k0 m src t He H1 Hm Hq Hc Hgrid Hg Hdim Hcrd Hxi Hzeta Hmu Hk Hk0 Hkind Hsrc Hmed Hb Hfit n Had e settled' Hf Ha.
  assert (asked_boundary g q (fun _ => 0)) as Hchi by (unfold asked_boundary; rewrite Hb; reflexivity).
  destruct (minus_none (points_of g) e) as (M1 & M2).
  exact (sw_ends W u eps settled thick q g crd v k0 m src t (fun _ => 0) He H1 Hm Hq Hc Hgrid Hg Hdim Hcrd Hxi Hzeta Hmu Hk Hk0 Hkind Hsrc Hmed Hchi Hfit
    (admissible_agree v (sampled g) k0 m _ t (fits_plus v t _ Hfit) (plus_none _ t) Had) e settled' Hf (admissible_agree v (sampled g) k0 m _ e (fits_plus v e _ Hf) M2 Ha)).
Qed.
Lemma sb_accurate : forall (W : Type) u eps settled thick q g crd v k0 m src t chi,
  (0 < eps)%R -> (2 * eps <= 1)%R -> (0 < m)%R -> (800 * sqrt eps * (m * m) < 1)%R -> (0 < c_light u)%R ->
  q_grid q = AGrid g -> Entry_Spec.spatial g -> (v = true -> (ndim RN g <= 3)%nat) -> (forall i, (i < ndim RN g)%nat -> coordinates g i = Ok (crd i)) ->
  q_xi q = GivenArray (number 0) -> q_zeta q = GivenArray (number 0) -> q_mu q = GivenArray (number (RtoC m)) -> asked_wavenumber u q k0 -> k0 <> 0%R -> asked_kind g q v -> asked_source u g crd k0 q v src ->
  asked_medium g crd q t -> asked_boundary g q chi -> fits v t ->
  let n := (if v then 3 else 1)%nat in
  admissible v (sampled g) k0 m (plus_isotropic t chi) ->
  forall e settled' loss, fits v e -> (0 < loss)%R -> absorbs n (points_of g) (minus_isotropic e chi) loss ->
  exists s0 K, new_solution u eps settled thick q = Ok s0 /\ forall l1 l2, List.Forall (admissible_step v (sampled g) k0 m chi) l1 -> List.Forall keeps_material l2 ->
    let s := history u l2 (assign_epsilon eps (sampled g) thick (steps u eps (sampled g) thick l1 s0) e settled') in let now := last_source u k0 l2 (latest_source u k0 l1 src) in
    exists E, wave_equation v (sampled g) k0 (/ m) (minus_isotropic e chi) E now /\ (forall E', wave_equation v (sampled g) k0 (/ m) (minus_isotropic e chi) E' now -> vagree n (points_of g) E' E) /\
      (forall c p, (c < n)%nat -> CSum.inside (points_of g) p -> chi p <> 0 -> E c p <> 0 -> ~ wave_equation v (sampled g) k0 (/ m) (plus_isotropic e chi) E now) /\
      forall rtol fuel (w w' : W) s', (0 < rtol)%R -> (exists c p, (c < n)%nat /\ CSum.inside (points_of g) p /\ now c p <> 0) ->
        solve_method fuel s NoneGiven rtol None w = Some (Returned w' s') -> (magnitude s' (fun c p => get_E s' c p - E c p)%C <= K * rtol * magnitude s' (get_E s'))%R.
Proof.
  intros W u eps settled thick q g crd v k0 m src t chi He H1 Hm Hq Hc Hgrid Hg Hdim Hcrd Hxi Hzeta Hmu Hk Hk0 Hkind Hsrc Hmed Hchi Hfit n Had e settled' loss Hf Hl Hab.
  destruct (sw_accurate W u eps settled thick q g crd v k0 m src t chi He H1 Hm Hq Hc Hgrid Hg Hdim Hcrd Hxi Hzeta Hmu Hk Hk0 Hkind Hsrc Hmed Hchi Hfit Had e settled' loss Hf Hl Hab) as (s0 & K & Es & H).
  exists s0, K. split; [exact Es|]. intros l1 l2 Hl1 Hl2 s now. destruct (H l1 l2 Hl1 Hl2) as (E & HE & Hun & HR). exists E. refine (conj HE (conj Hun (conj _ HR))).
  intros c p Hcn Hp Hx HEc. exact (minus_not_plus v (sampled g) k0 (/ m) e chi E now c p Hk0 Hf Hcn Hp Hx HEc HE).
Qed.
(** Media that absorb everywhere are admissible. *)
Lemma absorbing_media_admissible eps g v k0 m e loss : (0 < eps)%R -> (2 * eps <= 1)%R -> (0 < m)%R -> (800 * sqrt eps * (m * m) < 1)%R -> Entry_Spec.spatial g -> (v = true -> (ndim RN g <= 3)%nat) -> k0 <> 0%R ->
  fits v e -> (0 < loss)%R -> absorbs (if v then 3 else 1) (points_of g) e loss -> admissible v (sampled g) k0 m e.
Proof. intros He H1 Hm Hq Hg Hdim Hk0 Hf Hl Hab. eapply (absorbing_admissible eps (0, 0)%R None); eassumption. Qed.
