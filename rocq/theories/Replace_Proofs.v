(** Assigning epsilon in magnetic and chiral media and solving. *)
From Coq Require Import Reals Lra Lia List Arith ZArith Bool.
Require Import Verif.Base Verif.Num Verif.Grid_Model Verif.Grid_Spec Verif.Grid_Proofs Verif.Bound_Model Verif.Setup_Model Verif.Entry_Model Verif.Entry_Spec Verif.Entry_Proofs.
Require Import Verif.Array_Glue.
Require Import Verif.Cplx Verif.CSum Verif.Field Verif.Fourier_Model Verif.Fourier_Spec Verif.Vec_Model Verif.Vec_Spec Verif.Vec_Proofs Verif.Vec_Grid Verif.Solver_Model Verif.Solver_Spec Verif.Solver_Proofs.
Require Import Verif.Derived_Model Verif.Derived_Spec Verif.Derived_Tensor Verif.Choice_Model Verif.Choice_Proofs Verif.Array_Model Verif.Array_Spec.
Require Import Verif.Material_Model Verif.Material_Spec Verif.Solver_Convergence Verif.Solver_Limit Verif.Solver_Choice Verif.Run_Model Verif.Run_Spec Verif.Run_Proofs Verif.Run_Solve Verif.Run_Zero Verif.Run_Glue Verif.Run_Converge.
Require Import Verif.Magnetic_Spec Verif.Magnetic_Proofs Verif.Form_Spec Verif.Form_Proofs.
Require Import Verif.Whole_Model Verif.Whole_Spec Verif.Whole_Proofs Verif.Whole_Results Verif.Whole_Magnetic Verif.Warm_Model Verif.Warm_Proofs Verif.Reuse_Proofs Verif.Reuse_Magnetic Verif.Swap_Model Verif.Swap_Spec Verif.Swap_Proofs.
Require Import Verif.Replace_Spec Verif.Replace_Keep.
Import ListNotations.
Local Open Scope R_scope.
Local Open Scope C_scope.

Lemma dissipates_weaken s e x z m loss l : (l <= loss)%R -> dissipates s e x z m loss -> dissipates s e x z m l.
Proof.
  intros Hl Hd p E H Hp. cbv zeta. eapply Rle_trans; [|exact (Hd p E H Hp)]. apply Rmult_le_compat_r; [|exact Hl]. apply rsum_nonneg. intros i _. pose proof (Cmod_ge_0 (E i)). nra.
Qed.
Lemma maxwell_source u g k0 e x z m E H J J' : vagree 3 (rshape g) J' J -> maxwell u g k0 e x z m E H J -> maxwell u g k0 e x z m E H J'.
Proof. intros A (HF & HA). split; [exact HF|]. intros c p Hc Hp. rewrite (HA c p Hc Hp), (A c p Hc Hp). reflexivity. Qed.

Section Results.
  Variables (W : Type) (u : si) (eps : R) (settled : R * R) (thick : option R) (q : request) (g : grid RN) (crd : nat -> list R) (k0 : R)
    (src : vfield) (e x z m nu : tensor) (kappa : C) (chi : list nat -> C).
  Hypothesis He : (0 < eps)%R.
  Hypothesis H1 : (2 * eps <= 1)%R.
  Hypothesis Hu : physical u.
  Hypothesis Hgrid : q_grid q = AGrid g.
  Hypothesis Hg : Entry_Spec.spatial g.
  Hypothesis Hdim : (ndim RN g <= 3)%nat.
  Hypothesis Hcrd : forall i, (i < ndim RN g)%nat -> coordinates g i = Ok (crd i).
  Hypothesis Hxi : means_tensor g crd (q_xi q) x.
  Hypothesis Hzeta : means_tensor g crd (q_zeta q) z.
  Hypothesis Hk : asked_wavenumber u q k0.
  Hypothesis Hk0 : (0 < k0)%R.
  Hypothesis Hkind : asked_kind g q true.
  Hypothesis Hsrc : asked_source u g crd k0 q true src.
  Hypothesis Hmed : asked_materials g crd q e m.
  Hypothesis Hchi : asked_boundary g q chi.
  Hypothesis Hnu : inverse_of (points_of g) m nu.
  Hypothesis Hmag : is_magnetic (points_of g) x z m = true.
  Hypothesis Hprec : precise eps (sampled g) k0 settled.
  Hypothesis Hcouple : forall G, vagree 3 (points_of g) (coupling x z nu G) (fun c p => kappa * G c p).
  Hypothesis Hadm : magnetic_admissible u (sampled g) k0 (plus_isotropic e chi) x z m.
  Let gr := sampled g.
  Let pts := points_of g.
  Let os (e1 x1 z1 m1 : tensor) (settled1 : R * R) (S : vfield) := Choice_Model.construct eps gr k0 true e1 x1 z1 m1 settled1 thick S.
  Let Hs : solvable true gr k0 := whole_solvable g true k0 Hg (fun _ => Hdim) (Rgt_not_eq _ _ Hk0).

  (** Media that act as the one that was given. *)
  Definition like (x1 z1 m1 : tensor) : Prop :=
    acts_like pts x1 x /\ acts_like pts z1 z /\ acts_like pts m1 m /\ is_magnetic pts x1 z1 m1 = true.
  Lemma like_inverse x1 z1 m1 : like x1 z1 m1 -> inverse_of pts m1 nu.
  Proof. intros (_ & _ & Am & _). exact (inverse_acts _ _ _ _ (acts_sym _ _ _ Am) Hnu). Qed.
  Lemma like_coupling x1 z1 m1 : like x1 z1 m1 -> forall G, vagree 3 pts (coupling x1 z1 nu G) (fun c p => kappa * G c p).
  Proof. intros (Ax & Az & _). exact (coupling_acts _ _ _ _ _ _ _ (acts_sym _ _ _ Ax) (acts_sym _ _ _ Az) Hcouple). Qed.
  Lemma like_dissipates x1 z1 m1 e1 e2 loss : like x1 z1 m1 -> acts_like pts e1 e2 -> dissipates pts e2 x z m loss -> dissipates pts e1 x1 z1 m1 loss.
  Proof. intros (Ax & Az & Am & _) Ae. apply dissipates_acts; apply acts_sym; assumption. Qed.
  Lemma like_maxwell x1 z1 m1 e1 e2 E H J : like x1 z1 m1 -> acts_like pts e1 e2 -> maxwell u gr k0 e1 x1 z1 m1 E H J <-> maxwell u gr k0 e2 x z m E H J.
  Proof. intros (Ax & Az & Am & _) Ae. split; apply maxwell_acts; try assumption; apply acts_sym; assumption. Qed.
  Lemma like_kept x1 z1 m1 : like x1 z1 m1 -> like (keep_xi x1 m1) (keep_zeta z1 m1) (keep_mu m1).
  Proof.
    intros HL. pose proof (like_inverse _ _ _ HL) as Hi. destruct HL as (Ax & Az & Am & M).
    refine (conj _ (conj _ (conj _ _))).
    - exact (acts_trans _ _ _ _ (kept_xi_acts gr x1 z1 m1 nu Hi) Ax).
    - exact (acts_trans _ _ _ _ (kept_zeta_acts gr x1 z1 m1 nu Hi) Az).
    - exact (acts_trans _ _ _ _ (kept_mu_acts gr x1 z1 m1 nu Hi) Am).
    - rewrite <- M. exact (kept_magnetic gr x1 z1 m1 nu Hi (points_positive g (proj1 Hg))).
  Qed.
  (** What the iteration needs. *)
  Definition fit (e1 x1 z1 m1 : tensor) (settled1 : R * R) : Prop :=
    like x1 z1 m1 /\ precise eps gr k0 settled1 /\ magnetic_admissible u gr k0 e1 x1 z1 m1.
  Lemma fit_make e1 e2 x1 z1 m1 settled1 : like x1 z1 m1 -> acts_like pts e1 e2 -> precise eps gr k0 settled1 -> magnetic_admissible u gr k0 e2 x z m -> fit e1 x1 z1 m1 settled1.
  Proof.
    intros HL Ae Hp (Hd & Hex). refine (conj HL (conj Hp (conj (like_dissipates _ _ _ _ _ _ HL Ae Hd) _))).
    intros J. destruct (Hex J) as (E & H & HM). exists E, H. exact (proj2 (like_maxwell _ _ _ _ _ E H J HL Ae) HM).
  Qed.
  Lemma fit_family e1 x1 z1 m1 settled1 : fit e1 x1 z1 m1 settled1 -> let o := os e1 x1 z1 m1 settled1 in
    (forall S S', with_source (o S) S' = o S') /\ (forall S F, norm (o S) (update (o S) F) <> 0%R -> (norm (o S) (update (o S) (next_field (o S) F)) < norm (o S) (update (o S) F))%R).
  Proof.
    intros (HL & Hp & Hd & Hex) o. pose proof HL as (_ & _ & _ & M). split.
    - exact (ma_source eps u gr k0 e1 x1 z1 m1 settled1 thick He H1 Hu Hs Hk0 M Hp).
    - intros S F. apply (ma_shrinks eps u gr k0 e1 x1 z1 m1 nu settled1 thick kappa 0 He H1 Hu Hs Hk0 (like_inverse _ _ _ HL) M Hp (like_coupling _ _ _ HL) Hd (Rle_refl 0) S F). apply Hex.
  Qed.
  Lemma fit_assign b S s e1 x1 z1 m1 settled1 e' settled' : fit e1 x1 z1 m1 settled1 -> bound_chi s = b -> kept k0 (os e1 x1 z1 m1 settled1) S s ->
    let s' := assign_epsilon eps gr thick s e' settled' in
    bound_chi s' = b /\ kept k0 (os (less_bound b e') (keep_xi x1 m1) (keep_zeta z1 m1) (keep_mu m1) settled') S s'.
  Proof.
    intros HF Eb (Ew & Eo & _) s'. pose proof HF as (HL & Hp & Hd & Hex). pose proof HL as (_ & _ & _ & M).
    pose proof (ma_prepare eps u gr k0 e1 x1 z1 m1 settled1 thick Hu Hk0 M S) as P. fold (os e1 x1 z1 m1 settled1 S) in P.
    pose proof (mp_ai eps u gr k0 e1 x1 z1 m1 settled1 thick (current u k0 none) He H1 Hs Hk0 M Hp) as Pa. rewrite (driving_current u k0 none Hu Hk0) in Pa.
    pose proof (mp_beta eps gr k0 settled1 He H1 Hs Hk0 Hp) as Pb. cbv zeta in Pb.
    set (al := o_alpha (Choice_Model.construct eps gr k0 true e1 x1 z1 m1 settled1 thick none)) in *. assert (operators s = prepare (scaled k0 gr) true true al (snd settled1 * snd settled1) e1 x1 z1 m1 S) as Eo' by (rewrite Eo; exact P). clear P Eo. rename Eo' into Eo.
    assert (snd al <> 0%R) as Na by lra. assert ((snd settled1 * snd settled1)%R <> 0%R) as Nb by lra.
    pose proof (stored_xi_keeps (scaled k0 gr) al _ e1 x1 z1 m1 S Na Nb) as Sx. pose proof (stored_zeta_keeps (scaled k0 gr) al _ e1 x1 z1 m1 S Na Nb) as Sz.
    pose proof (stored_mu_keeps (scaled k0 gr) al _ e1 x1 z1 m1 S Na Nb) as Sm.
    assert (get_source s = S) as Eg by (apply vfield_ext; intros c p; unfold get_source; rewrite Eo; apply source_prepare; assumption).
    assert (s' = set_prev_norm (set_operators s (os (less_bound b e') (keep_xi x1 m1) (keep_zeta z1 m1) (keep_mu m1) settled' S)) Inf) as E'.
    { unfold s', assign_epsilon, os, Choice_Model.construct. rewrite Ew, Eb. rewrite Eo. rewrite Sx, Sz, Sm. destruct (choose _ _ _ _ _ _ _ _ _ _) as [alpha beta].
      unfold set_epsilon. rewrite Eg, Eb. rewrite Eo. rewrite Sx, Sz, Sm. reflexivity. }
    rewrite E'. split; [exact Eb|]. split; [exact Ew|]. split; [reflexivity|]. left. reflexivity.
  Qed.

  Section Start.
    Variables (x0 z0 m0 : tensor).
    Let x' := keep_xi x0 m0.
    Let z' := keep_zeta z0 m0.
    Let m' := keep_mu m0.
    Definition among (x1 z1 m1 : tensor) : Prop := (x1 = x0 /\ z1 = z0 /\ m1 = m0) \/ (x1 = x' /\ z1 = z' /\ m1 = m').
    Lemma among_kept x1 z1 m1 : among x1 z1 m1 -> keep_xi x1 m1 = x' /\ keep_zeta z1 m1 = z' /\ keep_mu m1 = m'.
    Proof.
      intros [(-> & -> & ->)|(-> & -> & ->)]; [refine (conj eq_refl (conj eq_refl eq_refl))|].
      exact (conj (keep_xi_twice x0 m0) (conj (keep_zeta_twice z0 m0) (keep_mu_twice m0))).
    Qed.
    Definition steady (b : option sfield) (S : vfield) (s : solution) : Prop :=
      bound_chi s = b /\ exists e1 x1 z1 m1 settled1, among x1 z1 m1 /\ fit e1 x1 z1 m1 settled1 /\ kept k0 (os e1 x1 z1 m1 settled1) S s.
    Lemma steady_do b S s a : steady b S s -> keeps_material a -> steady b (assigned_source u k0 S a) (perform u s a).
    Proof.
      intros (Eb & e1 & x1 & z1 & m1 & settled1 & HA & HF & HK) Ha. split; [rewrite perform_bound_chi; exact Eb|]. exists e1, x1, z1, m1, settled1. split; [exact HA|]. split; [exact HF|].
      destruct (fit_family _ _ _ _ _ HF) as (Hso & Hsh). apply kept_perform; assumption.
    Qed.
    Lemma steady_assign b S s e' settled' : steady b S s -> let s' := assign_epsilon eps gr thick s e' settled' in
      like x' z' m' /\ bound_chi s' = b /\ kept k0 (os (less_bound b e') x' z' m' settled') S s'.
    Proof.
      intros (Eb & e1 & x1 & z1 & m1 & settled1 & HA & HF & HK) s'. destruct (among_kept _ _ _ HA) as (Kx & Kz & Km). destruct (fit_assign b S s e1 x1 z1 m1 settled1 e' settled' HF Eb HK) as (P1 & P2).
      pose proof (like_kept _ _ _ (proj1 HF)) as P0. rewrite Kx, Kz, Km in P0, P2. exact (conj P0 (conj P1 P2)).
    Qed.
    Lemma steady_steps (b : option sfield) l : match b with None => forall p, chi p = 0 | Some x => forall p, CSum.inside (points_of g) p -> x p = chi p end ->
      forall S s, steady b S s -> List.Forall (magnetic_step u eps gr k0 x z m chi) l -> steady b (latest_source u k0 l S) (steps u eps gr thick l s).
    Proof.
      intros Hbc. induction l as [|a l IH]; intros S s H Hl; [exact H|]. inversion Hl as [|? ? Ha Hl']; subst. cbn [steps latest_source fold_left]. apply IH; [|exact Hl'].
      destruct a as [a|e' settled']; cbn [perform_step step_source magnetic_step] in *; [apply steady_do; assumption|]. destruct Ha as (Hp & Had).
      destruct (steady_assign b S s e' settled' H) as (P0 & P1 & P2). split; [exact P1|]. exists (less_bound b e'), x', z', m', settled'. split; [right; exact (conj eq_refl (conj eq_refl eq_refl))|].
      split; [|exact P2]. exact (fit_make _ _ _ _ _ _ P0 (tagree_acts _ _ _ (proj1 (less_bound_agree true (points_of g) chi b e' Hbc))) Hp Had).
    Qed.
  End Start.
  Lemma rp_start : exists s0 S0 x0 z0 m0 b, new_solution u eps settled thick q = Ok s0 /\ steady x0 z0 m0 b S0 s0 /\ vagree 3 (points_of g) S0 src /\
    match b with None => forall p, chi p = 0 | Some x => forall p, CSum.inside (points_of g) p -> x p = chi p end.
  Proof.
    destruct (magnetic_parts u eps settled thick q g crd k0 src (current u k0 src) e x z m chi Hu Hgrid Hg Hcrd Hxi Hzeta Hk Hk0 Hkind Hsrc
      ltac:(intros c p; rewrite (driving_current u k0 src Hu Hk0); reflexivity) Hmed Hchi) as (s & e0 & x0 & z0 & m0 & J0 & Es & Ew & Ef & Ep & Eo & Ae & Ax & Az & Am & AJ).
    exists s, (driving u k0 J0), x0, z0, m0, (bound_chi s). refine (conj Es (conj (conj eq_refl _) (conj _ (new_bound u eps settled thick q g chi s Hchi Es)))).
    - exists e0, x0, z0, m0, settled. split; [left; exact (conj eq_refl (conj eq_refl eq_refl))|]. split; [|exact (conj Ew (conj Eo (or_introl Ep)))].
      apply (fit_make _ (plus_isotropic e chi)); [|exact (tagree_acts _ _ _ Ae)|exact Hprec|exact Hadm].
      refine (conj (tagree_acts _ _ _ Ax) (conj (tagree_acts _ _ _ Az) (conj (tagree_acts _ _ _ Am) _))). unfold pts. rewrite (magnetic_agree _ _ _ _ _ _ _ (points_positive g (proj1 Hg)) Ax Az Am). exact Hmag.
    - intros c p Hc Hp. rewrite <- (driving_current u k0 src Hu Hk0). unfold driving. rewrite (AJ c p Hc Hp). reflexivity.
  Qed.

  (** After the assignment. *)
  Lemma rp_latest l : forall S S' : vfield, vagree 3 (points_of g) S S' -> vagree 3 (points_of g) (latest_source u k0 l S) (latest_source u k0 l S').
  Proof.
    induction l as [|a l IH]; intros S S' H; [exact H|]. apply IH. destruct a as [a|]; [|exact H]. exact (last_source_agree u k0 3 (points_of g) [a] S S' H).
  Qed.
  Lemma rp_assigned e' settled' : precise eps gr k0 settled' -> magnetic_admissible u gr k0 (minus_isotropic e' chi) x z m ->
    exists s0 S0 e1 x1 z1 m1, new_solution u eps settled thick q = Ok s0 /\ fit e1 x1 z1 m1 settled' /\ acts_like pts e1 (minus_isotropic e' chi) /\
      (forall l, vagree 3 (points_of g) (latest_source u k0 l S0) (latest_source u k0 l src)) /\
      forall l1 l2, List.Forall (magnetic_step u eps gr k0 x z m chi) l1 -> List.Forall keeps_material l2 ->
        kept k0 (os e1 x1 z1 m1 settled') (last_source u k0 l2 (latest_source u k0 l1 S0)) (history u l2 (assign_epsilon eps gr thick (steps u eps gr thick l1 s0) e' settled')).
  Proof.
    intros Hp Had. destruct rp_start as (s0 & S0 & x0 & z0 & m0 & b & Es & HS & HA & Hbc).
    pose proof (tagree_acts _ _ _ (proj1 (less_bound_agree true (points_of g) chi b e' Hbc))) as Ae.
    destruct (steady_assign x0 z0 m0 b S0 s0 e' settled' HS) as (P0 & _). pose proof (fit_make _ _ _ _ _ _ P0 Ae Hp Had) as HF.
    exists s0, S0, (less_bound b e'), (keep_xi x0 m0), (keep_zeta z0 m0), (keep_mu m0). refine (conj Es (conj HF (conj Ae (conj (fun l => rp_latest l _ _ HA) _)))).
    intros l1 l2 Hl1 Hl2. pose proof (steady_steps x0 z0 m0 b l1 Hbc S0 s0 HS Hl1) as HS1. destruct (fit_family _ _ _ _ _ HF) as (Hso & Hsh).
    destruct (steady_assign x0 z0 m0 b _ _ e' settled' HS1) as (_ & _ & HK). exact (kept_history u k0 _ Hso Hsh l2 _ _ HK Hl2).
  Qed.
  Lemma dissipating_admissible e' loss settled' : precise eps gr k0 settled' -> (0 < loss)%R -> dissipates pts e' x z m loss ->
    magnetic_admissible u gr k0 e' x z m /\ forall J, exists E H, maxwell u gr k0 e' x z m E H J /\ forall E' H', maxwell u gr k0 e' x z m E' H' J -> vagree 3 (points_of g) E' E /\ vagree 3 (points_of g) H' H.
  Proof.
    intros Hp Hl Hd. assert (forall J, exists E H, maxwell u gr k0 e' x z m E H J /\ forall E' H', maxwell u gr k0 e' x z m E' H' J -> vagree 3 (points_of g) E' E /\ vagree 3 (points_of g) H' H) as HU.
    { intros J. destruct (ma_exists eps u gr k0 e' x z m nu settled' thick kappa loss He H1 Hu Hs Hk0 Hnu Hmag Hp Hcouple Hd (Rlt_le _ _ Hl) (driving u k0 J) Hl) as (E & H & HM & Hun).
      rewrite (current_driving u k0 (driving u k0 J) J Hu Hk0 (fun _ _ => eq_refl)) in HM. exists E, H. split; [exact HM|]. intros E' H' HM'. apply Hun.
      rewrite (current_driving u k0 (driving u k0 J) J Hu Hk0 (fun _ _ => eq_refl)). exact HM'. }
    split; [|exact HU]. split; [exact (dissipates_weaken _ _ _ _ _ _ 0 (Rlt_le _ _ Hl) Hd)|]. intros J. destruct (HU J) as (E & H & HM & _). exists E, H. exact HM.
  Qed.

  Lemma rp_ends e' settled' : precise eps gr k0 settled' -> magnetic_admissible u gr k0 (minus_isotropic e' chi) x z m ->
    exists s0, new_solution u eps settled thick q = Ok s0 /\ forall l1 l2 rtol maxiter (w : W), List.Forall (magnetic_step u eps gr k0 x z m chi) l1 -> List.Forall keeps_material l2 ->
      let s := history u l2 (assign_epsilon eps gr thick (steps u eps gr thick l1 s0) e' settled') in let now := last_source u k0 l2 (latest_source u k0 l1 src) in
      (exists c p, (c < 3)%nat /\ CSum.inside (points_of g) p /\ now c p <> 0) -> (0 < rtol)%R ->
      exists fuel s', (solve_method fuel s NoneGiven rtol maxiter w = Some (Returned w s') /\ limit_reached maxiter rtol s') \/
        (solve_method fuel s NoneGiven rtol maxiter w = Some (Raised w s' ZeroDivisionError) /\ (vagree 3 (points_of g) (get_E s') (fun _ _ => 0) \/ previous_update_norm s = Fin 0)).
  Proof.
    intros Hp' Had. destruct (rp_assigned e' settled' Hp' Had) as (s0 & S0 & e1 & x1 & z1 & m1 & Es & HF & Ae & HA & HK). exists s0. split; [exact Es|].
    intros l1 l2 rtol maxiter w Hl1 Hl2 s now (c & p & Hcn & Hp & HS) Ht. specialize (HK l1 l2 Hl1 Hl2). fold s in HK.
    destruct (fit_family _ _ _ _ _ HF) as (Hso & Hsh). destruct HF as (HL & _ & Hd & Hex). pose proof HL as (_ & _ & _ & M).
    pose proof (last_source_agree u k0 3 (points_of g) l2 _ _ (HA l1)) as HA2. fold now in HA2.
    assert (prev_norm s = Fin 0 \/ prev_norm s <> Fin 0) as [Z|Z].
    { destruct (prev_norm s) as [y|]; [|right; discriminate]. destruct (Req_EM_T y 0) as [->|ne]; [left; reflexivity|right; congruence]. }
    { exists 1%nat. eexists. right. unfold solve_method. cbn [loop]. rewrite (next_raise s true Z). split; [reflexivity|]. right. unfold previous_update_norm. rewrite Z. f_equal. unfold Rdiv. ring. }
    pose proof HK as (Ew & Eo & _). set (S1 := last_source u k0 l2 (latest_source u k0 l1 S0)) in *. destruct (Hex (current u k0 S1)) as (E & H & HM).
    destruct (ma_finishes eps u gr k0 e1 x1 z1 m1 nu settled' thick kappa 0 He H1 Hu Hs Hk0 (like_inverse _ _ _ HL) M Hp' (like_coupling _ _ _ HL) Hd (Rle_refl 0) S1 (set_prev_norm s Inf) E H maxiter rtol w c p Ew Eo eq_refl HM Hcn Hp ltac:(rewrite (HA2 c p Hcn Hp); exact HS) Ht)
      as (fuel & [(y & EL & En)|(y & EL & Hz)]); exists fuel, y; [left|right]; unfold solve_method; cbn [chosen]; rewrite (kept_loop k0 _ Hsh _ s fuel _ true w HK Z), EL; (split; [reflexivity|]).
    - apply (ended_limit _ _ _ _ _ _ En).
    - left. exact Hz.
  Qed.
  Lemma rp_accurate e' settled' loss : precise eps gr k0 settled' -> (0 < loss)%R -> dissipates pts (minus_isotropic e' chi) x z m loss ->
    exists s0 K, new_solution u eps settled thick q = Ok s0 /\ forall l1 l2 J, List.Forall (magnetic_step u eps gr k0 x z m chi) l1 -> List.Forall keeps_material l2 ->
      (forall c p, last_source u k0 l2 (latest_source u k0 l1 src) c p = driving u k0 J c p) ->
      let s := history u l2 (assign_epsilon eps gr thick (steps u eps gr thick l1 s0) e' settled') in
      exists E H, maxwell u gr k0 (minus_isotropic e' chi) x z m E H J /\
        (forall E' H', maxwell u gr k0 (minus_isotropic e' chi) x z m E' H' J -> vagree 3 (points_of g) E' E /\ vagree 3 (points_of g) H' H) /\
        forall rtol fuel (w w' : W) s', (0 < rtol)%R -> (exists c p, (c < 3)%nat /\ CSum.inside (points_of g) p /\ J c p <> 0) ->
          solve_method fuel s NoneGiven rtol None w = Some (Returned w' s') ->
          (magnitude s' (fun c p => get_E s' c p - E c p)%C <= K * rtol * magnitude s' (get_E s'))%R /\
          (magnitude s' (fun c p => magnetizing_field u (operators s') (wavenumber s') (field s') c p - H c p)%C <= K * rtol * magnitude s' (get_E s'))%R.
  Proof.
    intros Hp' Hl Hd0. destruct (dissipating_admissible _ loss settled' Hp' Hl Hd0) as (Had & HU).
    destruct (rp_assigned e' settled' Hp' Had) as (s0 & S0 & e1 & x1 & z1 & m1 & Es & HF & Ae & HA & HK).
    pose proof (fit_family _ _ _ _ _ HF) as (Hso & Hsh). pose proof HF as (HL & _ & _ & Hex). pose proof HL as (_ & _ & _ & M). pose proof (like_dissipates _ _ _ _ _ _ HL Ae Hd0) as Hd.
    destruct (ma_error eps u gr k0 e1 x1 z1 m1 nu settled' thick kappa loss He H1 Hu Hs Hk0 (like_inverse _ _ _ HL) M Hp' (like_coupling _ _ _ HL) Hd Hl) as (K & HKe).
    exists s0, K. split; [exact Es|]. intros l1 l2 J Hl1 Hl2 HJ s. destruct (HU J) as (E & H & HM & Hun). exists E, H. split; [exact HM|]. split; [exact Hun|].
    intros rtol fuel w w' y Ht (c & p & Hcn & Hp & HS) Er. specialize (HK l1 l2 Hl1 Hl2). fold s in HK. pose proof HK as (Ew & Eo & _).
    pose proof (last_source_agree u k0 3 (points_of g) l2 _ _ (HA l1)) as HA2. set (S1 := last_source u k0 l2 (latest_source u k0 l1 S0)) in *.
    assert (prev_norm s <> Fin 0) as Z. { intros Z. destruct fuel; [discriminate|]. unfold solve_method in Er. cbn [loop] in Er. rewrite (next_raise s true Z) in Er. discriminate. }
    unfold solve_method in Er. cbn [chosen] in Er. rewrite (kept_loop k0 _ Hsh _ s fuel _ true w HK Z) in Er.
    assert (vagree 3 (points_of g) (current u k0 S1) J) as AJ.
    { intros c' p' Hc' Hp''. rewrite <- (current_driving u k0 _ J Hu Hk0 HJ). unfold current. rewrite (HA2 c' p' Hc' Hp''). reflexivity. }
    assert (maxwell u gr k0 e1 x1 z1 m1 E H (current u k0 S1)) as HM0.
    { apply (like_maxwell _ _ _ _ _ E H _ HL Ae). exact (maxwell_source u gr k0 _ x z m E H _ _ AJ HM). }
    assert (S1 c p <> 0) as HS0.
    { rewrite (HA2 c p Hcn Hp). intros E0. apply HS. rewrite <- (current_driving u k0 _ J Hu Hk0 HJ). unfold current. rewrite E0. unfold Cdiv. ring. }
    destruct (ma_finishes eps u gr k0 e1 x1 z1 m1 nu settled' thick kappa loss He H1 Hu Hs Hk0 (like_inverse _ _ _ HL) M Hp' (like_coupling _ _ _ HL) Hd (Rlt_le _ _ Hl) S1 (set_prev_norm s Inf) E H None rtol w c p Ew Eo eq_refl HM0 Hcn Hp HS0 Ht)
      as (fuel' & [(y' & EL & Hx)|(y' & EL & _)]); pose proof (loop_more _ _ _ _ _ _ Er fuel') as P; pose proof (loop_more _ _ _ _ _ _ EL fuel) as Q; rewrite Nat.add_comm, P in Q; [|discriminate Q].
    injection Q as _ ->. exact (HKe _ _ E H rtol y' HM0 Ht Hx).
  Qed.
End Results.

(** Without a bound, and with one. *)
Lemma Cmult_cancel_l (a b c : C) : a <> 0 -> a * b = a * c -> b = c.
Proof. intros H E. transitivity (/ a * (a * b)); [field; exact H|]. rewrite E. field. exact H. Qed.
Lemma Cplus_cancel_l (a b c : C) : a + b = a + c -> b = c.
Proof. intros E. transitivity (a + b - a); [ring|]. rewrite E. ring. Qed.
Lemma admissible_acts u g k0 e e' x z m : acts_like (rshape g) e e' -> magnetic_admissible u g k0 e' x z m -> magnetic_admissible u g k0 e x z m.
Proof.
  intros A (Hd & Hex). assert (forall t, acts_like (rshape g) t t) as Rf by (intros t F c p _ _; reflexivity). pose proof (acts_sym _ _ _ A) as A'. split.
  - exact (dissipates_acts _ _ _ _ _ _ _ _ _ _ A' (Rf _) (Rf _) (Rf _) Hd).
  - intros J. destruct (Hex J) as (E & H & HM). exists E, H. exact (maxwell_acts _ _ _ _ _ _ _ _ _ _ _ E H J A' (Rf _) (Rf _) (Rf _) HM).
Qed.
Lemma magnetic_minus_not_plus u g k0 e x z m nu (chi : list nat -> C) (E H H' J : vfield) c p : physical u -> (0 < k0)%R -> (rndim g <= 3)%nat -> inverse_of (rshape g) m nu -> (c < 3)%nat -> CSum.inside (rshape g) p -> chi p <> 0 -> E c p <> 0 ->
  maxwell u g k0 (minus_isotropic e chi) x z m E H J -> ~ maxwell u g k0 (plus_isotropic e chi) x z m E H' J.
Proof.
  intros Hu Hk Hd Hnu Hc Hp Hx HE (F1 & A1) (F2 & A2). destruct Hu as (Hcl & Hm0 & He0 & _).
  assert (0 < k0 * c_light u)%R as Hw by (apply Rmult_lt_0_compat; assumption).
  assert (Ci * RtoC (k0 * c_light u) <> 0) as Nw by (intros Q; apply (f_equal snd) in Q; cbn in Q; lra).
  assert (vagree 3 (rshape g) H' H) as V.
  { assert (vagree 3 (rshape g) (tapply m H') (tapply m H)) as Vm.
    { intros i r Hi Hr. pose proof (F1 i r Hi Hr) as Q1. pose proof (F2 i r Hi Hr) as Q2. rewrite Q1 in Q2. unfold constitutive_B in Q2.
      assert (RtoC (mu_0 u) <> 0) as Nm by (intros Q; apply RtoC_inj in Q; lra).
      apply (Cmult_cancel_l (Ci * RtoC (k0 * c_light u)) _ _ Nw) in Q2. apply (Cplus_cancel_l _ _ _) in Q2. apply (Cmult_cancel_l _ _ _ Nm) in Q2. symmetry. exact Q2. }
    intros i r Hi Hr. rewrite <- (proj2 (Hnu H') i r Hi Hr), <- (proj2 (Hnu H) i r Hi Hr). exact (tapply_ext3 _ nu _ _ Vm i r Hi Hr). }
  pose proof (A1 c p Hc Hp) as Q1. pose proof (A2 c p Hc Hp) as Q2. rewrite (curl_vagree g H' H Hd V c p Hc Hp), Q1 in Q2. unfold constitutive_D in Q2. rewrite (tapply_ext3 _ x _ _ V c p Hc Hp) in Q2.
  unfold minus_isotropic in Q2. rewrite !(isotropic_apply true) in Q2 by (exact Hc || (destruct e; cbn; trivial)).
  assert (Ci * RtoC (k0 * c_light u) * (RtoC (epsilon_0 u) * (RtoC 2 * (chi p * E c p))) = 0) as Z.
  { match type of Q2 with J c p - ?w * (?a * (?t + _) + ?y) = _ => transitivity ((J c p - w * (a * (t + - chi p * E c p) + y)) - (J c p - w * (a * (t + chi p * E c p) + y))); [apply injective_projections; simpl; ring|rewrite Q2; ring] end. }
  assert (RtoC (epsilon_0 u) <> 0) as Ne by (intros Q; apply RtoC_inj in Q; lra). assert (RtoC 2 <> 0) as N2 by (intros Q; apply RtoC_inj in Q; lra).
  exact (Cmult_neq_0 _ _ Nw (Cmult_neq_0 _ _ Ne (Cmult_neq_0 _ _ N2 (Cmult_neq_0 _ _ Hx HE))) Z).
Qed.
Lemma rn_accurate : forall (W : Type) u eps settled thick q g crd k0 src e x z m nu kappa,
  (0 < eps)%R -> (2 * eps <= 1)%R -> physical u ->
  q_grid q = AGrid g -> Entry_Spec.spatial g -> (ndim RN g <= 3)%nat -> (forall i, (i < ndim RN g)%nat -> coordinates g i = Ok (crd i)) ->
  means_tensor g crd (q_xi q) x -> means_tensor g crd (q_zeta q) z -> asked_wavenumber u q k0 -> (0 < k0)%R -> asked_kind g q true ->
  asked_source u g crd k0 q true src -> asked_materials g crd q e m -> q_bound q = None ->
  inverse_of (points_of g) m nu -> is_magnetic (points_of g) x z m = true -> precise eps (sampled g) k0 settled ->
  (forall G, vagree 3 (points_of g) (coupling x z nu G) (fun c p => kappa * G c p)) -> magnetic_admissible u (sampled g) k0 e x z m ->
  forall e' settled' loss, precise eps (sampled g) k0 settled' -> (0 < loss)%R -> dissipates (points_of g) e' x z m loss ->
  exists s0 K, new_solution u eps settled thick q = Ok s0 /\
    forall l1 l2 J, List.Forall (magnetic_step u eps (sampled g) k0 x z m (fun _ => 0)) l1 -> List.Forall keeps_material l2 ->
      (forall c p, last_source u k0 l2 (latest_source u k0 l1 src) c p = driving u k0 J c p) ->
      let s := history u l2 (assign_epsilon eps (sampled g) thick (steps u eps (sampled g) thick l1 s0) e' settled') in
      exists E H, maxwell u (sampled g) k0 e' x z m E H J /\
        (forall E' H', maxwell u (sampled g) k0 e' x z m E' H' J -> vagree 3 (points_of g) E' E /\ vagree 3 (points_of g) H' H) /\
        forall rtol fuel (w w' : W) s', (0 < rtol)%R -> (exists c p, (c < 3)%nat /\ CSum.inside (points_of g) p /\ J c p <> 0) ->
          solve_method fuel s NoneGiven rtol None w = Some (Returned w' s') ->
          (magnitude s' (fun c p => get_E s' c p - E c p)%C <= K * rtol * magnitude s' (get_E s'))%R /\
          (magnitude s' (fun c p => magnetizing_field u (operators s') (wavenumber s') (field s') c p - H c p)%C <= K * rtol * magnitude s' (get_E s'))%R.
Proof.
  intros W u eps settled thick q g crd k0 src e x z m nu kappa He H1 Hu Hgrid Hg Hdim Hcrd Hxi Hzeta Hk Hk0 Hkind Hsrc Hmed Hb Hnu Hmag Hprec Hcouple Hadm e' settled' loss Hp' Hl Hd.
  assert (asked_boundary g q (fun _ => 0)) as Hchi by (unfold asked_boundary; rewrite Hb; reflexivity).
  destruct (minus_none (points_of g) e') as (M1 & M2). assert (forall t, acts_like (points_of g) t t) as Rf by (intros t F c p _ _; reflexivity).
  pose proof (tagree_acts _ _ _ M1) as A1. pose proof (tagree_acts _ _ _ M2) as A2.
  destruct (rp_accurate W u eps settled thick q g crd k0 src e x z m nu kappa (fun _ => 0) He H1 Hu Hgrid Hg Hdim Hcrd Hxi Hzeta Hk Hk0 Hkind Hsrc Hmed Hchi Hnu Hmag Hprec Hcouple (admissible_acts u (sampled g) k0 _ e x z m (tagree_acts _ _ _ (plus_none (points_of g) e)) Hadm) e' settled' loss Hp' Hl
    (dissipates_acts _ _ _ _ _ _ _ _ _ _ A1 (Rf _) (Rf _) (Rf _) Hd)) as (s0 & K & Es & H).
  exists s0, K. split; [exact Es|]. intros l1 l2 J Hl1 Hl2 HJ s. destruct (H l1 l2 J Hl1 Hl2 HJ) as (E & HH & HM & Hun & HR). exists E, HH.
  refine (conj (maxwell_acts u (sampled g) k0 _ _ _ _ _ _ _ _ E HH J A2 (Rf _) (Rf _) (Rf _) HM) (conj _ HR)).
  intros E' H' HM'. exact (Hun E' H' (maxwell_acts u (sampled g) k0 _ _ _ _ _ _ _ _ E' H' J A1 (Rf _) (Rf _) (Rf _) HM')).
Qed.
Lemma rn_ends : forall (W : Type) u eps settled thick q g crd k0 src e x z m nu kappa,
  (0 < eps)%R -> (2 * eps <= 1)%R -> physical u ->
  q_grid q = AGrid g -> Entry_Spec.spatial g -> (ndim RN g <= 3)%nat -> (forall i, (i < ndim RN g)%nat -> coordinates g i = Ok (crd i)) ->
  means_tensor g crd (q_xi q) x -> means_tensor g crd (q_zeta q) z -> asked_wavenumber u q k0 -> (0 < k0)%R -> asked_kind g q true ->
  asked_source u g crd k0 q true src -> asked_materials g crd q e m -> q_bound q = None ->
  inverse_of (points_of g) m nu -> is_magnetic (points_of g) x z m = true -> precise eps (sampled g) k0 settled ->
  (forall G, vagree 3 (points_of g) (coupling x z nu G) (fun c p => kappa * G c p)) -> magnetic_admissible u (sampled g) k0 e x z m ->
  forall e' settled', precise eps (sampled g) k0 settled' -> magnetic_admissible u (sampled g) k0 e' x z m ->
  exists s0, new_solution u eps settled thick q = Ok s0 /\
    forall l1 l2 rtol maxiter (w : W), List.Forall (magnetic_step u eps (sampled g) k0 x z m (fun _ => 0)) l1 -> List.Forall keeps_material l2 ->
      let s := history u l2 (assign_epsilon eps (sampled g) thick (steps u eps (sampled g) thick l1 s0) e' settled') in let now := last_source u k0 l2 (latest_source u k0 l1 src) in
      (exists c p, (c < 3)%nat /\ CSum.inside (points_of g) p /\ now c p <> 0) -> (0 < rtol)%R ->
      exists fuel s', (solve_method fuel s NoneGiven rtol maxiter w = Some (Returned w s') /\ limit_reached maxiter rtol s') \/
        (solve_method fuel s NoneGiven rtol maxiter w = Some (Raised w s' ZeroDivisionError) /\ (vagree 3 (points_of g) (get_E s') (fun _ _ => 0) \/ previous_update_norm s = Fin 0)).
Proof.
  intros W u eps settled thick q g crd k0 src e x z m nu kappa He H1 Hu Hgrid Hg Hdim Hcrd Hxi Hzeta Hk Hk0 Hkind Hsrc Hmed Hb Hnu Hmag Hprec Hcouple Hadm e' settled' Hp' Had'.
  assert (asked_boundary g q (fun _ => 0)) as Hchi by (unfold asked_boundary; rewrite Hb; reflexivity).
  exact (rp_ends W u eps settled thick q g crd k0 src e x z m nu kappa (fun _ => 0) He H1 Hu Hgrid Hg Hdim Hcrd Hxi Hzeta Hk Hk0 Hkind Hsrc Hmed Hchi Hnu Hmag Hprec Hcouple (admissible_acts u (sampled g) k0 _ e x z m (tagree_acts _ _ _ (plus_none (points_of g) e)) Hadm) e' settled' Hp'
    (admissible_acts u (sampled g) k0 _ e' x z m (tagree_acts _ _ _ (proj2 (minus_none (points_of g) e'))) Had')).
Qed.
Lemma rb_accurate : forall (W : Type) u eps settled thick q g crd k0 src e x z m nu kappa chi,
  (0 < eps)%R -> (2 * eps <= 1)%R -> physical u ->
  q_grid q = AGrid g -> Entry_Spec.spatial g -> (ndim RN g <= 3)%nat -> (forall i, (i < ndim RN g)%nat -> coordinates g i = Ok (crd i)) ->
  means_tensor g crd (q_xi q) x -> means_tensor g crd (q_zeta q) z -> asked_wavenumber u q k0 -> (0 < k0)%R -> asked_kind g q true ->
  asked_source u g crd k0 q true src -> asked_materials g crd q e m -> asked_boundary g q chi ->
  inverse_of (points_of g) m nu -> is_magnetic (points_of g) x z m = true -> precise eps (sampled g) k0 settled ->
  (forall G, vagree 3 (points_of g) (coupling x z nu G) (fun c p => kappa * G c p)) -> magnetic_admissible u (sampled g) k0 (plus_isotropic e chi) x z m ->
  forall e' settled' loss, precise eps (sampled g) k0 settled' -> (0 < loss)%R -> dissipates (points_of g) (minus_isotropic e' chi) x z m loss ->
  exists s0 K, new_solution u eps settled thick q = Ok s0 /\
    forall l1 l2 J, List.Forall (magnetic_step u eps (sampled g) k0 x z m chi) l1 -> List.Forall keeps_material l2 ->
      (forall c p, last_source u k0 l2 (latest_source u k0 l1 src) c p = driving u k0 J c p) ->
      let s := history u l2 (assign_epsilon eps (sampled g) thick (steps u eps (sampled g) thick l1 s0) e' settled') in
      exists E H, maxwell u (sampled g) k0 (minus_isotropic e' chi) x z m E H J /\
        (forall E' H', maxwell u (sampled g) k0 (minus_isotropic e' chi) x z m E' H' J -> vagree 3 (points_of g) E' E /\ vagree 3 (points_of g) H' H) /\
        (forall c p H', (c < 3)%nat -> CSum.inside (points_of g) p -> chi p <> 0 -> E c p <> 0 -> ~ maxwell u (sampled g) k0 (plus_isotropic e' chi) x z m E H' J) /\
        forall rtol fuel (w w' : W) s', (0 < rtol)%R -> (exists c p, (c < 3)%nat /\ CSum.inside (points_of g) p /\ J c p <> 0) ->
          solve_method fuel s NoneGiven rtol None w = Some (Returned w' s') ->
          (magnitude s' (fun c p => get_E s' c p - E c p)%C <= K * rtol * magnitude s' (get_E s'))%R /\
          (magnitude s' (fun c p => magnetizing_field u (operators s') (wavenumber s') (field s') c p - H c p)%C <= K * rtol * magnitude s' (get_E s'))%R.
Proof.
  intros W u eps settled thick q g crd k0 src e x z m nu kappa chi He H1 Hu Hgrid Hg Hdim Hcrd Hxi Hzeta Hk Hk0 Hkind Hsrc Hmed Hb Hnu Hmag Hprec Hcouple Hadm e' settled' loss Hp' Hl Hd.
  destruct (rp_accurate W u eps settled thick q g crd k0 src e x z m nu kappa chi He H1 Hu Hgrid Hg Hdim Hcrd Hxi Hzeta Hk Hk0 Hkind Hsrc Hmed Hb Hnu Hmag Hprec Hcouple Hadm e' settled' loss Hp' Hl Hd) as (s0 & K & Es & H).
  exists s0, K. split; [exact Es|]. intros l1 l2 J Hl1 Hl2 HJ s. destruct (H l1 l2 J Hl1 Hl2 HJ) as (E & HH & HM & Hun & HR). exists E, HH. refine (conj HM (conj Hun (conj _ HR))).
  intros c p H' Hc Hp Hx HE. refine (magnetic_minus_not_plus u (sampled g) k0 e' x z m nu chi E HH H' J c p Hu Hk0 _ Hnu Hc Hp Hx HE HM).
  apply (whole_solvable g true k0 Hg (fun _ => Hdim) (Rgt_not_eq _ _ Hk0)). reflexivity.
Qed.
