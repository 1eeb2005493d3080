(** Histories with interruptions. *)
From Coq Require Import Reals Lra Lia List Arith ZArith Bool.
Require Import Verif.Base Verif.Num Verif.Grid_Model Verif.Grid_Spec Verif.Grid_Proofs Verif.Bound_Model Verif.Setup_Model Verif.Entry_Model Verif.Entry_Spec Verif.Entry_Proofs.
Require Import Verif.Array_Glue.
Require Import Verif.Cplx Verif.CSum Verif.Field Verif.Fourier_Model Verif.Fourier_Spec Verif.Vec_Model Verif.Vec_Spec Verif.Vec_Proofs Verif.Vec_Grid Verif.Solver_Model Verif.Solver_Spec Verif.Solver_Proofs.
Require Import Verif.Derived_Model Verif.Derived_Spec Verif.Choice_Model Verif.Choice_Proofs Verif.Choice_Construct Verif.Array_Model Verif.Array_Spec.
Require Import Verif.Material_Model Verif.Material_Spec Verif.Solver_Convergence Verif.Solver_Limit Verif.Solver_Choice Verif.Choice_Gain Verif.Run_Model Verif.Run_Spec Verif.Run_Proofs Verif.Run_Solve Verif.Run_Zero Verif.Run_Glue Verif.Run_Converge.
Require Import Verif.Whole_Model Verif.Whole_Spec Verif.Whole_Proofs Verif.Whole_Results Verif.Warm_Model Verif.Warm_Proofs Verif.Reuse_Proofs.
Require Import Verif.Memory_Model Verif.Memory_Spec Verif.Memory_Proofs Verif.Memory_Steps Verif.Memory_Reads Verif.Memory_Sessions Verif.Interrupt_Model Verif.Interrupt_Spec Verif.Interrupt_Proofs Verif.Interrupt_Steps.
Import ListNotations.
Local Open Scope R_scope.
Local Open Scope C_scope.

(** ** On the memory *)
Section Lives.
  Variables (lib : library) (aligned : loc -> bool) (junk : nat -> vfield) (u : si).
  Lemma work_rests (P : loc -> Prop) h h' : safe P h -> same_but_work h h' -> safe P h' /\ (forall l, P l -> content h' l = content h l).
  Proof.
    intros S (C & _ & F & G & K). split.
    - destruct S. constructor; rewrite ?F, ?G; try assumption.
      + eapply me_here_le; [|eassumption]. lia.
      + eapply me_here_le; [|eassumption]. lia.
      + intros l Hl. eapply me_here_le; [|apply s_here; exact Hl]. lia.
    - intros l Hl. apply K; intros ->; destruct S; contradiction.
  Qed.
  Lemma cut_sound x fresh m' : sound x -> interruption lib aligned junk fresh (now x) m' ->
    sound {| now := m'; got := got x |} /\ halted (solution_of (now x)) (solution_of m') /\
    forall k l, nth_error (got x) k = Some l -> l <> Buffer -> content (mem m') l = content (mem (now x)) l.
  Proof.
    intros Hx (m0 & Hst & Er & Hw). assert (PF : held x Field) by (now left). assert (PS : held x Source) by (right; now left).
    destruct (next_stops lib aligned junk (held x) fresh (now x) m0 (o_safe x Hx) PF PS Hst) as ((A & B & D) & Hh).
    destruct (work_rests (held x) _ _ A Hw) as (A' & K). split; [|split].
    - constructor; cbn [got now]; [exact A'|apply (o_apart x Hx)|apply (o_once x Hx)].
    - replace (solution_of m') with (solution_of m0); [exact Hh|]. unfold solution_of. rewrite Er, (K Field PF), (K Source PS). reflexivity.
    - intros k l Hk Nb. assert (held x l) as Hl by (right; right; split; [eapply nth_error_In; eauto|exact Nb]). rewrite (K l Hl).
      destruct (o_apart x Hx l (nth_error_In _ _ Hk)) as [N1 N2]. apply D; assumption.
  Qed.
  Lemma lived_past s l y : lived lib aligned junk u (start s) l y -> sound y /\ past u s (happenings l) (solution_of (now y)).
  Proof.
    induction 1 as [|l y d _ (Hs & Hp)|l y fresh m _ (Hs & Hp) Hc].
    - split; [apply me_sound_start|]. rewrite me_solution_start. constructor.
    - destruct (me_deed lib aligned junk u y d Hs) as (A & B & _). split; [exact A|]. unfold happenings. rewrite flat_map_app. cbn [flat_map]. rewrite app_nil_r, B. destruct d as [a|g|k f]; cbn [counts].
      + apply past_whole. exact Hp.
      + rewrite app_nil_r. exact Hp.
      + rewrite app_nil_r. exact Hp.
    - destruct (cut_sound y fresh m Hs Hc) as (A & B & _). split; [exact A|]. unfold happenings. rewrite flat_map_app. cbn [flat_map counts app]. apply (past_broken _ _ _ (solution_of (now y))); assumption.
  Qed.
  Lemma lived_reads s l y g : lived lib aligned junk u (start s) l y ->
    match value u g (solution_of (now y)) with
    | Ok v => array (deed_m lib aligned junk u y (Read g)) (obtained y) = Some v
    | Err e => snd (read_m lib aligned junk u g (now y)) = Err e /\ got (deed_m lib aligned junk u y (Read g)) = got y
    end.
  Proof.
    intros H. destruct (lived_past s l y H) as (Hx & _). assert (PF : held y Field) by (now left). assert (PS : held y Source) by (right; now left).
    destruct (me_read lib aligned junk u (held y) g (now y) (o_safe y Hx) PF PS) as (R & V). unfold deed_m, array, obtained.
    destruct (read_m lib aligned junk u g (now y)) as [m r]. cbn [fst snd] in *.
    destruct (value u g (solution_of (now y))) as [v|e], r as [z|e']; cbn in V; try contradiction.
    - destruct V as (r & h' & E & _ & Vl & _). injection E as <- <-. cbn [got now].
      rewrite nth_error_app2 by lia. rewrite Nat.sub_diag. simpl. now rewrite Vl.
    - destruct V as [-> _]. now split.
  Qed.
  Lemma cut_arrays s l y fresh m k a : lived lib aligned junk u (start s) l y -> interruption lib aligned junk fresh (now y) m ->
    nth_error (got y) k = Some a -> a <> Buffer -> array {| now := m; got := got y |} k = array y k.
  Proof.
    intros H Hc Hk Na. destruct (lived_past s l y H) as (Hs & _). destruct (cut_sound y fresh m Hs Hc) as (_ & _ & K). unfold array. cbn [got now]. rewrite Hk. cbn [option_map]. rewrite (K k a Hk Na). reflexivity.
  Qed.
End Lives.

(** ** Updates that only shrink *)
Section Shrink.
  Variables (u : si) (k0 : R) (os : vfield -> ops).
  Hypothesis Hsource : forall S S', with_source (os S) S' = os S'.
  Hypothesis shrinks : forall S F, norm (os S) (update (os S) F) <> 0%R -> (norm (os S) (update (os S) (next_field (os S) F)) < norm (os S) (update (os S) F))%R.
  Hypothesis stays : forall S F, norm (os S) (update (os S) F) = 0%R -> norm (os S) (update (os S) (next_field (os S) F)) = 0%R.

  (** The stored norm is that of an update before the field was reached. *)
  Definition led (S : vfield) (s : solution) : Prop :=
    wavenumber s = k0 /\ operators s = os S /\
    (prev_norm s = Inf \/ exists F j, field s = Nat.iter (Datatypes.S j) (next_field (os S)) F /\ prev_norm s = Fin (norm (os S) (update (os S) F))).
  Lemma shrinks_more S F : norm (os S) (update (os S) F) <> 0%R -> forall j, (norm (os S) (update (os S) (Nat.iter (Datatypes.S j) (next_field (os S)) F)) < norm (os S) (update (os S) F))%R.
  Proof.
    intros H. induction j as [|j IH]; [apply shrinks; exact H|]. eapply Rle_lt_trans; [|exact IH].
    change (Nat.iter (Datatypes.S (Datatypes.S j)) (next_field (os S)) F) with (next_field (os S) (Nat.iter (Datatypes.S j) (next_field (os S)) F)). set (G := Nat.iter (Datatypes.S j) _ F).
    destruct (Req_EM_T (norm (os S) (update (os S) G)) 0) as [Z|Z]; [rewrite (stays S G Z), Z; lra|left; apply shrinks; exact Z].
  Qed.
  Lemma led_accepts S s : led S s -> prev_norm s <> Fin 0 ->
    prev_norm s = Inf \/ exists q, prev_norm s = Fin q /\ (0 < q)%R /\ (norm (operators s) (update (operators s) (field s)) < q)%R.
  Proof.
    intros (_ & Ho & [Hp|(F & j & Hf & Hp)]) Hn; [left; exact Hp|]. right. rewrite Hp in *. rewrite Ho, Hf.
    assert (norm (os S) (update (os S) F) <> 0)%R as Hz by congruence. eexists. split; [reflexivity|].
    pose proof (norm_nonneg (os S) (update (os S) F)). split; [lra|apply shrinks_more; exact Hz].
  Qed.
  Lemma fin_or s : prev_norm s = Fin 0 \/ prev_norm s <> Fin 0.
  Proof. destruct (prev_norm s) as [x|]; [|right; discriminate]. destruct (Req_EM_T x 0) as [->|n]; [left; reflexivity|right; congruence]. Qed.
  Lemma led_next S s fresh : led S s -> led S (fst (next fresh s)).
  Proof.
    intros H. destruct (fin_or s) as [E|E].
    - rewrite (next_raise s fresh E). exact H.
    - rewrite (next_accept s fresh (led_accepts S s H E)). destruct H as (Hw & Ho & _). cbn [fst]. split; [exact Hw|]. split; [exact Ho|]. right. exists (field s), 0%nat.
      cbn [field prev_norm set_prev_norm set_field]. rewrite Ho. split; reflexivity.
  Qed.
  Lemma led_perform S s a : led S s -> keeps_material a -> led (assigned_source u k0 S a) (perform u s a).
  Proof.
    intros H Ha. pose proof H as (Hw & Ho & Hp). destruct a; cbn [perform assigned_source keeps_material] in *; try contradiction.
    - apply led_next. exact H.
    - split; [exact Hw|]. split; [exact Ho|]. left. reflexivity.
    - split; [exact Hw|]. split; [|left; reflexivity]. cbn. rewrite Ho. apply Hsource.
    - split; [exact Hw|]. split; [|left; reflexivity]. cbn. rewrite Ho, Hsource. f_equal. apply vfield_ext. intros c p.
      unfold source_of_current, angular_frequency. rewrite Hw, !RtoC_mult. ring.
    - exact H.
    - destruct (read_residue_same s) as (r & ->). exact H.
  Qed.
  Lemma led_refuses S s : led S s -> ~ refuses s.
  Proof.
    intros H Hr. destruct (fin_or s) as [E|E]; [unfold refuses in Hr; rewrite E in Hr; destruct Hr as (Z & _); apply Z; reflexivity|].
    unfold refuses in Hr. destruct (led_accepts S s H E) as [Q|(q & Q & Hq & Hl)]; rewrite Q in Hr; [exact Hr|]. destruct Hr as (_ & Hr). apply Hr.
    apply (Rmult_lt_reg_r q); [exact Hq|]. unfold Rdiv. rewrite Rmult_assoc, Rinv_l, Rmult_1_r, Rmult_1_l by lra. exact Hl.
  Qed.
  Lemma led_halted S s s' : led S s -> halted s s' -> led S s'.
  Proof.
    intros H [i r _ ->|i Ha ->|fresh _ ->|o i Hr ->].
    - exact H.
    - destruct H as (Hw & Ho & Hp). split; [exact Hw|]. split; [exact Ho|]. destruct Hp as [Hp|(F & j & Hf & Hp)]; [left; exact Hp|]. right. exists F, (Datatypes.S j). split; [|exact Hp].
      cbn [field counted set_residue set_iteration set_field]. rewrite Ho, Hf. reflexivity.
    - apply led_next. exact H.
    - destruct (led_refuses S s H Hr).
  Qed.
  Lemma led_past S s : led S s -> forall l s', past u s l s' -> List.Forall keeps_material (completed l) -> led (last_source u k0 (completed l) S) s'.
  Proof.
    intros H l s' Hp. induction Hp as [|l t a _ IH|l t t' _ IH Hh]; intros Hl; [exact H| |].
    - unfold completed in *. rewrite flat_map_app in *. cbn [flat_map app] in *. apply Forall_app in Hl. destruct Hl as (Hl & Ha). inversion Ha as [|? ? Ha' _]; subst.
      unfold last_source. rewrite fold_left_app. cbn [fold_left]. apply led_perform; [apply IH; exact Hl|exact Ha'].
    - unfold completed in *. rewrite flat_map_app in *. cbn [flat_map app] in *. rewrite app_nil_r in *. exact (led_halted _ t t' (IH Hl) Hh).
  Qed.
  Lemma led_loop {W} S s fuel (cb : callback W) fresh (w : W) : led S s -> prev_norm s <> Fin 0 -> loop fuel cb fresh w s = loop fuel cb fresh w (set_prev_norm s Inf).
  Proof.
    intros H E. destruct fuel as [|fuel]; [reflexivity|]. cbn [loop].
    rewrite (next_accept s fresh (led_accepts S s H E)), (next_accept (set_prev_norm s Inf) fresh (or_introl eq_refl)). reflexivity.
  Qed.
End Shrink.
Lemma kept_led k0 os S s : kept k0 os S s -> led k0 os S s.
Proof. intros (Hw & Ho & [Hp|(F & Hf & Hp)]); (split; [exact Hw|]; split; [exact Ho|]); [left; exact Hp|]. right. exists F, 0%nat. split; [exact Hf|exact Hp]. Qed.

Section Results.
  Variables (W : Type) (u : si) (eps : R) (settled : R * R) (thick : option R) (q : request) (g : grid RN) (crd : nat -> list R) (v : bool) (k0 m : R)
    (src : vfield) (t : tensor) (chi : list nat -> C).
  Let n := (if v then 3 else 1)%nat.
  Hypothesis He : (0 < eps)%R.
  Hypothesis H1 : (2 * eps <= 1)%R.
  Hypothesis Hm : (0 < m)%R.
  Hypothesis Hq : (800 * sqrt eps * (m * m) < 1)%R.
  Hypothesis Hc : (0 < c_light u)%R.
  Hypothesis Hgrid : q_grid q = AGrid g.
  Hypothesis Hg : Entry_Spec.spatial g.
  Hypothesis Hdim : v = true -> (ndim RN g <= 3)%nat.
  Hypothesis Hcrd : forall i, (i < ndim RN g)%nat -> coordinates g i = Ok (crd i).
  Hypothesis Hxi : q_xi q = GivenArray (number 0).
  Hypothesis Hzeta : q_zeta q = GivenArray (number 0).
  Hypothesis Hmu : q_mu q = GivenArray (number (RtoC m)).
  Hypothesis Hk : asked_wavenumber u q k0.
  Hypothesis Hk0 : k0 <> 0%R.
  Hypothesis Hkind : asked_kind g q v.
  Hypothesis Hsrc : asked_source u g crd k0 q v src.
  Hypothesis Hmed : asked_medium g crd q t.
  Hypothesis Hchi : asked_boundary g q chi.
  Hypothesis Hfit : fits v t.
  Let os (alpha : C) (e0 : tensor) (S : vfield) := prepare (scaled k0 (sampled g)) v false alpha (/ m) e0 tzero tzero (tuniform (RtoC m)) S.
  Let solves (E S : vfield) := wave_equation v (sampled g) k0 (/ m) (plus_isotropic t chi) E S.

  Lemma in_stays e0 alpha S F : fits v e0 -> (0 < snd alpha)%R -> norm (os alpha e0 S) (update (os alpha e0 S) F) = 0%R ->
    norm (os alpha e0 S) (update (os alpha e0 S) (next_field (os alpha e0 S) F)) = 0%R.
  Proof.
    intros F0 Pa HN. pose proof (whole_solvable g v k0 Hg Hdim Hk0) as Hs. pose proof (Rinv_0_lt_compat m Hm) as Hb.
    pose proof HN as HZ. apply norm_zero_agree in HN. rewrite <- HZ. unfold norm. f_equal. apply vagree_vnorm2.
    apply (de_update (os alpha e0 S) (si_next_vagree v (sampled g) k0 alpha (/ m) e0 (tuniform (RtoC m)) S Hs F0 Pa Hb)).
    intros c p Hcc Hp. unfold next_field. rewrite (HN c p Hcc Hp). ring.
  Qed.
  Lemma in_iterates : (forall S, exists E, solves E S) -> absorbs n (points_of g) (plus_isotropic t chi) 0 ->
    exists s0, new_solution u eps settled thick q = Ok s0 /\ forall l s fresh, past u s0 l s -> List.Forall keeps_material (completed l) ->
      ~ refuses s /\ (prev_norm s = Fin 0 \/ snd (next fresh s) = None /\ Run_Spec.change s (fst (next fresh s)) = attempt s).
  Proof.
    intros Hex Hab. destruct (re_parts u eps settled thick q g crd v k0 m src t chi He H1 Hm Hq Hc Hgrid Hg Hcrd Hxi Hzeta Hmu Hk Hkind Hsrc Hmed Hchi Hfit 0 (Rle_refl 0) Hab) as (s0 & e0 & S0 & alpha & rho & Es & HK & F0 & Pa & Hr & Hd & L0 & HA & HW). exists s0. split; [exact Es|]. intros l s fresh Hp Hl.
    destruct (re_family u g v k0 m src t chi Hm Hg Hdim Hk0 0 e0 S0 alpha rho Hex (Rle_refl 0) F0 Pa Hr Hd L0 HW) as (Hso & Hsh).
    pose proof (led_past u k0 _ Hso Hsh (fun S F => in_stays e0 alpha S F F0 Pa) S0 s0 (kept_led _ _ _ _ HK) l s Hp Hl) as HL.
    split; [exact (led_refuses k0 _ Hsh (fun S F => in_stays e0 alpha S F F0 Pa) _ s HL)|]. destruct (fin_or s) as [Z|Z]; [left; exact Z|right].
    rewrite (next_accept s fresh (led_accepts k0 _ Hsh (fun S F => in_stays e0 alpha S F F0 Pa) _ s HL Z)). cbn [fst snd]. split; [reflexivity|].
    destruct HL as (Hw & _). assert (wavenumber s <> 0%R) as Hks by (rewrite Hw; exact Hk0). rewrite (attempt_is s Hks). apply change_accept; [exact Hks|reflexivity|reflexivity].
  Qed.
  Lemma in_ends : (forall S, exists E, solves E S) -> absorbs n (points_of g) (plus_isotropic t chi) 0 ->
    exists s0, new_solution u eps settled thick q = Ok s0 /\ forall l s rtol maxiter (w : W), past u s0 l s -> List.Forall keeps_material (completed l) -> let now := last_source u k0 (completed l) src in
      (exists c p, (c < n)%nat /\ CSum.inside (points_of g) p /\ now c p <> 0) -> (0 < rtol)%R ->
      exists fuel s', (solve_method fuel s NoneGiven rtol maxiter w = Some (Returned w s') /\ limit_reached maxiter rtol s') \/
        (solve_method fuel s NoneGiven rtol maxiter w = Some (Raised w s' ZeroDivisionError) /\ (vagree n (points_of g) (get_E s') (fun _ _ => 0) \/ previous_update_norm s = Fin 0)).
  Proof.
    intros Hex Hab. destruct (re_parts u eps settled thick q g crd v k0 m src t chi He H1 Hm Hq Hc Hgrid Hg Hcrd Hxi Hzeta Hmu Hk Hkind Hsrc Hmed Hchi Hfit 0 (Rle_refl 0) Hab) as (s0 & e0 & S0 & alpha & rho & Es & HK & F0 & Pa & Hr & Hd & L0 & HA & HW). exists s0. split; [exact Es|]. intros l s rtol maxiter w Hp0 Hl now (c & p & Hcn & Hp & HS) Ht.
    pose proof (whole_solvable g v k0 Hg Hdim Hk0) as Hs. pose proof (Rinv_0_lt_compat m Hm) as Hb.
    destruct (re_family u g v k0 m src t chi Hm Hg Hdim Hk0 0 e0 S0 alpha rho Hex (Rle_refl 0) F0 Pa Hr Hd L0 HW) as (Hso & Hsh).
    pose proof (led_past u k0 _ Hso Hsh (fun S F => in_stays e0 alpha S F F0 Pa) S0 s0 (kept_led _ _ _ _ HK) l s Hp0 Hl) as HK'.
    destruct (fin_or s) as [Z|Z].
    { exists 1%nat. eexists. right. unfold solve_method. cbn [loop]. rewrite (next_raise s true Z). split; [reflexivity|]. right. unfold previous_update_norm. rewrite Z. f_equal. unfold Rdiv. ring. }
    pose proof HK' as (Ew & Eo & _). destruct (Hex now) as (E & HE).
    pose proof (source_moves v (sampled g) k0 alpha (/ m) e0 (tuniform (RtoC m)) (last_source u k0 (completed l) S0) rho c p Hs F0 I Pa Hb Hd Hr Hcn Hp ltac:(rewrite (HA (completed l) c p Hcn Hp); exact HS)) as Hmv.
    destruct (si_finishes v (sampled g) k0 alpha (/ m) e0 (tuniform (RtoC m)) (last_source u k0 (completed l) S0) Hs F0 I Pa Hb 0 rho L0 Hd Hr (set_prev_norm s Inf) Ew Eo eq_refl E maxiter rtol w (Rle_refl 0) (proj2 (HW (completed l) E) HE) Hmv Ht) as (fuel & [(x & EL & En)|(x & EL & i & (Xw & Xo & Xf & _) & Hz & _)]).
    - exists fuel, x. left. unfold solve_method. cbn [chosen]. rewrite (led_loop k0 _ Hsh (fun S F => in_stays e0 alpha S F F0 Pa) _ s fuel _ true w HK' Z), EL. split; [reflexivity|]. apply (ended_limit _ _ _ _ _ _ En).
    - exists fuel, x. right. unfold solve_method. cbn [chosen]. rewrite (led_loop k0 _ Hsh (fun S F => in_stays e0 alpha S F F0 Pa) _ s fuel _ true w HK' Z), EL. split; [reflexivity|]. left. apply vnorm2_zero in Hz. intros c' p' Hc' Hp'. unfold get_E, electric_field. rewrite Xf.
      rewrite (Hz c' p' Hc' Hp'). unfold Cdiv. ring.
  Qed.
  Lemma in_accurate loss : (0 < loss)%R -> absorbs n (points_of g) (plus_isotropic t chi) loss ->
    exists s0 K, new_solution u eps settled thick q = Ok s0 /\ forall l s, past u s0 l s -> List.Forall keeps_material (completed l) -> let now := last_source u k0 (completed l) src in
      exists E, solves E now /\ (forall E', solves E' now -> vagree n (points_of g) E' E) /\
        forall rtol fuel (w w' : W) s', (0 < rtol)%R -> (exists c p, (c < n)%nat /\ CSum.inside (points_of g) p /\ now c p <> 0) ->
          solve_method fuel s NoneGiven rtol None w = Some (Returned w' s') -> (magnitude s' (fun c p => get_E s' c p - E c p)%C <= K * rtol * magnitude s' (get_E s'))%R.
  Proof.
    intros Hl Hab. destruct (re_parts u eps settled thick q g crd v k0 m src t chi He H1 Hm Hq Hc Hgrid Hg Hcrd Hxi Hzeta Hmu Hk Hkind Hsrc Hmed Hchi Hfit loss (Rlt_le _ _ Hl) Hab) as (s0 & e0 & S0 & alpha & rho & Es & HK & F0 & Pa & Hr & Hd & L0 & HA & HW).
    pose proof (whole_solvable g v k0 Hg Hdim Hk0) as Hs. pose proof (Rinv_0_lt_compat m Hm) as Hb.
    assert (forall l, exists E, solves E (last_source u k0 l src) /\ forall E', solves E' (last_source u k0 l src) -> vagree n (points_of g) E' E) as HU.
    { intros l. destruct (si_error_limit v (sampled g) k0 alpha (/ m) e0 (tuniform (RtoC m)) (last_source u k0 l S0) Hs F0 I Pa Hb loss rho L0 Hd Hr Hl) as (E & _ & _ & HE & Hu & _).
      exists E. split; [apply HW, HE|]. intros E' HE'. apply Hu, HW, HE'. }
    assert (forall S, exists E, solves E S) as Hex. { intros S. destruct (HU [OSetSource S]) as (E & HE & _). exists E. exact HE. }
    destruct (re_family u g v k0 m src t chi Hm Hg Hdim Hk0 loss e0 S0 alpha rho Hex (Rlt_le _ _ Hl) F0 Pa Hr Hd L0 HW) as (Hso & Hsh).
    exists s0, (4 / Rmin (2 * (loss / (/ m * snd alpha))) (1 - rho * rho))%R. split; [exact Es|]. intros l s Hpa Hml now. destruct (HU (completed l)) as (E & HE & Hun). exists E. split; [exact HE|]. split; [exact Hun|].
    intros rtol fuel w w' y Ht (c & p & Hcn & Hp & HS) Er.
    pose proof (led_past u k0 _ Hso Hsh (fun S F => in_stays e0 alpha S F F0 Pa) S0 s0 (kept_led _ _ _ _ HK) l s Hpa Hml) as HK'. pose proof HK' as (Ew & Eo & _).
    assert (prev_norm s <> Fin 0) as Z. { intros Z. destruct fuel; [discriminate|]. unfold solve_method in Er. cbn [loop] in Er. rewrite (next_raise s true Z) in Er. discriminate. }
    unfold solve_method in Er. cbn [chosen] in Er. rewrite (led_loop k0 _ Hsh (fun S F => in_stays e0 alpha S F F0 Pa) _ s fuel _ true w HK' Z) in Er.
    pose proof (source_moves v (sampled g) k0 alpha (/ m) e0 (tuniform (RtoC m)) (last_source u k0 (completed l) S0) rho c p Hs F0 I Pa Hb Hd Hr Hcn Hp ltac:(rewrite (HA (completed l) c p Hcn Hp); exact HS)) as Hmv.
    destruct (si_finishes v (sampled g) k0 alpha (/ m) e0 (tuniform (RtoC m)) (last_source u k0 (completed l) S0) Hs F0 I Pa Hb loss rho L0 Hd Hr (set_prev_norm s Inf) Ew Eo eq_refl E None rtol w (Rlt_le _ _ Hl) (proj2 (HW (completed l) E) HE) Hmv Ht) as (fuel' & [(x & EL & Hx)|(x & EL & _)]);
      pose proof (loop_more _ _ _ _ _ _ Er fuel') as P; pose proof (loop_more _ _ _ _ _ _ EL fuel) as Q; rewrite Nat.add_comm, P in Q; [|discriminate Q].
    injection Q as _ ->. exact (me_error v (sampled g) k0 alpha (/ m) e0 (tuniform (RtoC m)) Hs F0 I Pa Hb loss rho L0 Hd Hr (last_source u k0 (completed l) S0) _ E rtol x Hl (proj2 (HW (completed l) E) HE) Ht Hx).
  Qed.
End Results.
