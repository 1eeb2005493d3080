(** Proofs about scattering matrices whose calculations are interrupted. *)
From Coq Require Import Reals List Arith ZArith Bool Lia Lra FunctionalExtensionality.
Require Import Verif.Base Verif.Cplx Verif.CSum Verif.Field Verif.Fourier_Model Verif.Fourier_Spec Verif.Fourier_Proofs.
Require Import Verif.Vec_Model Verif.Vec_Spec Verif.Vec_Proofs Verif.Solver_Model Verif.Solver_Spec Verif.Solver_Proofs.
Require Import Verif.Derived_Model Verif.Derived_Spec Verif.Run_Model Verif.Run_Spec Verif.Run_Proofs Verif.Run_Solve Verif.Run_Converge.
Require Import Verif.Matrix_Model Verif.Matrix_Spec Verif.Matrix_Cache Verif.Modes_Model Verif.Modes_Spec Verif.Scatter_Model Verif.Scatter_Spec Verif.Scatter_Proofs.
Require Import Verif.Stored_Model Verif.Stored_Spec Verif.Stored_Proofs Verif.Solver_Convergence Verif.Solver_Limit Verif.Solver_Choice Verif.Run_Zero Verif.Symmetry_Spec Verif.Symmetry_Limit Verif.Reuse_Proofs Verif.Memory_Model Verif.Interrupt_Model Verif.Interrupt_Spec Verif.Interrupt_Results Verif.Abandon_Model.
Import ListNotations.
Local Open Scope R_scope.
Local Open Scope C_scope.

Lemma next_bound fresh s : bound_chi (fst (next fresh s)) = bound_chi s.
Proof.
  unfold next. destruct fresh; cbn; destruct (prev_norm s); cbn; try reflexivity; (destruct (Req_EM_T _ _); [reflexivity|]); destruct (Rlt_dec _ _); reflexivity.
Qed.
Lemma halted_bound s y : halted s y -> bound_chi y = bound_chi s.
Proof. intros [i r _ ->|i _ ->|fresh _ ->|o i _ ->]; try reflexivity. apply next_bound. Qed.

Section Device.
  Variables (d : device) (alpha : C) (beta : R) (eps mu : tensor) (chi : option sfield).
  Hypothesis Hd : well_laid d.
  Hypothesis Hl : lossy d alpha beta eps mu.
  Variables (maxiter : option Z) (rtol : R).
  Hypothesis Ht : (0 < rtol)%R.
  Let n := n_elements (optics_of d).
  Let made := made_of d alpha beta eps mu chi.
  Let os (S : vfield) := prepare (scaled (k_vacuum d) (device_grid d)) (is_vectorial d) false alpha beta eps tzero tzero mu S.

  Lemma ab_source S S' : with_source (os S) S' = os S'.
  Proof. destruct Hl as (_ & _ & Ha & Hb & _). unfold os. apply with_source_prepare; lra. Qed.
  Lemma ab_shrinks S F : norm (os S) (update (os S) F) <> 0%R -> (norm (os S) (update (os S) (next_field (os S) F)) < norm (os S) (update (os S) F))%R.
  Proof.
    destruct Hd as (Hs & _). destruct Hl as (Hf & Hm & Ha & Hb & loss & rho & H1 & H2 & H3 & H4).
    apply (me_shrinks (is_vectorial d) (device_grid d) (k_vacuum d) alpha beta eps mu Hs Hf Hm Ha Hb loss rho H3 ltac:(lra) H4 H2 S F).
    destruct (si_converges (is_vectorial d) (device_grid d) (k_vacuum d) alpha beta eps mu S Hs Hf Hm Ha Hb loss rho H3 H4 H2 none H1) as (E & q & _ & HE & _). exists E. exact HE.
  Qed.
  Lemma ab_stays S F : norm (os S) (update (os S) F) = 0%R -> norm (os S) (update (os S) (next_field (os S) F)) = 0%R.
  Proof.
    destruct Hd as (Hs & _). destruct Hl as (Hf & Hm & Ha & Hb & _). intros HN. pose proof HN as HZ. apply norm_zero_agree in HN. rewrite <- HZ. unfold norm. f_equal. apply vagree_vnorm2.
    apply (de_update (os S) (si_next_vagree (is_vectorial d) (device_grid d) (k_vacuum d) alpha beta eps mu S Hs Hf Ha Hb)).
    intros c p Hcc Hp. unfold next_field. rewrite (HN c p Hcc Hp). ring.
  Qed.
  Let ld := led (k_vacuum d) os.
  Lemma ab_made S x : ld S x -> bound_chi x = chi -> made x.
  Proof. intros (Hw & Ho & _) Hb. split; [exact Hw|]. split; [exact Hb|]. exists S. exact Ho. Qed.
  Lemma ab_underway S fresh s f t : underway (limits maxiter rtol) fresh s f t -> ld S s -> bound_chi s = chi -> ld S t /\ bound_chi t = chi.
  Proof.
    induction 1 as [fresh s|fresh s s1 s2 f t E C _ IH]; intros H Hb; [split; assumption|]. apply IH.
    - pose proof (led_next (k_vacuum d) os ab_shrinks ab_stays S s fresh H) as L. rewrite E in L. cbn [fst] in L.
      assert (s2 = s1 \/ s2 = fst (read_residue s1)) as [->| ->]; [| exact L|].
      { unfold limits in C. destruct (match maxiter with None => true | Some m => (iteration s1 <? m)%Z end); [|discriminate].
        destruct (read_residue s1) as [s' [[x|]|e]]; try discriminate; [destruct (Rlt_dec rtol x); [|discriminate]|]; injection C as <-; right; reflexivity. }
      destruct (read_residue_same s1) as (r & ->). exact L.
    - assert (bound_chi s2 = bound_chi s1) as ->; [|rewrite <- Hb, <- (next_bound fresh s), E; reflexivity].
      unfold limits in C. destruct (match maxiter with None => true | Some m => (iteration s1 <? m)%Z end); [|discriminate].
      destruct (read_residue_same s1) as (r & Er). destruct (read_residue s1) as [s' [[x|]|e]]; try discriminate; cbn [fst] in Er; [destruct (Rlt_dec rtol x); [|discriminate]|]; injection C as <-; rewrite Er; reflexivity.
  Qed.
  Lemma abandoned_made x S y : made x -> abandoned maxiter rtol x S y -> made y.
  Proof.
    intros Hx H. pose proof Hx as (Hw & Hb & S0 & Ho). fold (os S0) in Ho.
    assert (Start : ld S (set_E (set_source x S) (fun _ _ => 0)) /\ bound_chi (set_E (set_source x S) (fun _ _ => 0)) = chi).
    { split; [|exact Hb]. split; [exact Hw|]. split; [|left; reflexivity]. change (with_source (operators x) S = os S). rewrite Ho. apply ab_source. }
    destruct H as [|S'| |F|fresh t y U K|fresh t y U K|fresh t y U K].
    - exact Hx.
    - split; [exact Hw|]. split; [exact Hb|]. exists S'. change (with_source (operators x) S' = os S'). rewrite Ho. apply ab_source.
    - split; [exact Hw|]. split; [exact Hb|]. exists S. change (with_source (operators x) S = os S). rewrite Ho. apply ab_source.
    - split; [exact Hw|]. split; [exact Hb|]. exists S. change (with_source (operators x) S = os S). rewrite Ho. apply ab_source.
    - destruct (ab_underway S _ _ _ _ U (proj1 Start) (proj2 Start)) as (L & B). apply (ab_made S); [exact (led_halted (k_vacuum d) os ab_shrinks ab_stays S t y L K)|].
      rewrite (halted_bound t y K). exact B.
    - destruct (ab_underway S _ _ _ _ U (proj1 Start) (proj2 Start)) as (L & B). pose proof (led_next (k_vacuum d) os ab_shrinks ab_stays S t fresh L) as L'. pose proof (next_bound fresh t) as B'. rewrite K in L', B'.
      apply (ab_made S); [exact L'|]. cbn [fst] in B'. rewrite B'. exact B.
    - destruct (ab_underway S _ _ _ _ U (proj1 Start) (proj2 Start)) as (L & B). pose proof (led_next (k_vacuum d) os ab_shrinks ab_stays S t fresh L) as L'. pose proof (next_bound fresh t) as B'. rewrite K in L', B'.
      destruct (read_residue_same y) as (r & ->). apply (ab_made S); [exact L'|]. cbn [fst] in B'. cbn [set_residue bound_chi]. rewrite B'. exact B.
  Qed.

  Let snd_ := sound d alpha beta eps mu chi maxiter rtol.
  Lemma product_sound fuel s v r s' : snd_ s -> proper_input d v -> product_column fuel maxiter rtol d s v = Some (r, s') -> snd_ s'.
  Proof.
    intros Hs Hv E. destruct (product_step d alpha beta eps mu chi Hd Hl maxiter rtol Ht s v Hs Hv) as (F & u & s1 & E1 & S1 & _).
    pose proof (product_more _ F _ _ _ _ _ _ E) as Q. rewrite Nat.add_comm, E1 in Q. injection Q as _ <-. exact S1.
  Qed.
  Lemma products_sound fuel vs s r s' : snd_ s -> List.Forall (proper_input d) vs -> products fuel maxiter rtol d s vs = Some (r, s') -> snd_ s'.
  Proof.
    intros Hs Hv E. destruct (products_step d alpha beta eps mu chi Hd Hl maxiter rtol Ht vs s Hs Hv) as (F & us & s1 & E1 & S1 & _).
    pose proof (products_more _ F _ _ _ _ _ _ E) as Q. rewrite Nat.add_comm, E1 in Q. injection Q as _ <-. exact S1.
  Qed.
  Lemma moved_sound s y : snd_ s -> made y -> snd_ (with_solution s y).
  Proof. intros (_ & H) Hy. split; [exact Hy|exact H]. Qed.
  Lemma column_cut_sound s v s' : snd_ s -> proper_input d v -> column_cut maxiter rtol d s v s' -> snd_ s'.
  Proof.
    intros Hs Hv [|y Hy|fuel r t E|fuel r t E].
    - exact Hs.
    - apply moved_sound; [exact Hs|]. exact (abandoned_made _ _ _ (proj1 Hs) Hy).
    - apply moved_sound; [exact Hs|]. exact (proj1 (product_sound _ _ _ _ _ Hs Hv E)).
    - exact (product_sound _ _ _ _ _ Hs Hv E).
  Qed.
  Lemma products_cut_sound s vs k s' : products_cut maxiter rtol d s vs k s' -> snd_ s -> List.Forall (proper_input d) vs -> snd_ s'.
  Proof.
    induction 1 as [s v vs s' Hc|s v vs fuel u s1 k s' E _ IH|s]; intros Hs Hv; [| |exact Hs]; inversion Hv as [|? ? V1 V2]; subst.
    - exact (column_cut_sound _ _ _ Hs V1 Hc).
    - apply IH; [exact (product_sound _ _ _ _ _ Hs V1 E)|exact V2].
  Qed.
  Lemma basis_all : List.Forall (proper_input d) (map basis (List.seq 0 n)).
  Proof. apply List.Forall_forall. intros v Hv. apply in_map_iff in Hv. destruct Hv as (b & <- & Hb). apply in_seq in Hb. apply basis_proper. unfold n in Hb. lia. Qed.
  Lemma cut_sound s a s' : snd_ s -> proper_use d a -> use_cut maxiter rtol d s a s' -> snd_ s'.
  Proof.
    intros Hs Ha. destruct a as [vs|b|]; cbn [use_cut proper_use] in *.
    - intros (k & H). exact (products_cut_sound _ _ _ _ H Hs Ha).
    - intros [->| ->]; exact Hs.
    - intros (k & H). exact (products_cut_sound _ _ _ _ H Hs basis_all).
  Qed.
  Lemma use_sound fuel s a s' : snd_ s -> proper_use d a -> apply_use fuel maxiter rtol d s a = Some s' -> snd_ s'.
  Proof.
    intros Hs Ha. destruct a as [vs|b|]; cbn [apply_use proper_use] in *.
    - destruct (products fuel maxiter rtol d s vs) as [[r t]|] eqn:E; [|discriminate]. intros [= <-]. exact (products_sound _ _ _ _ _ Hs Ha E).
    - intros [= <-]. exact Hs.
    - unfold as_array, fill_array. fold n. destruct (products fuel maxiter rtol d s (map basis (List.seq 0 n))) as [[r t]|] eqn:E; [|discriminate]. cbn. intros [= <-]. exact (products_sound _ _ _ _ _ Hs basis_all E).
  Qed.
  Lemma endured_sound s l s' : endured maxiter rtol d s l s' -> snd_ s -> List.Forall (fun e => proper_use d (used e)) l -> snd_ s'.
  Proof.
    induction 1 as [|l t fuel a t' _ IH E|l t a t' _ IH E]; intros Hs Hp; [exact Hs| |]; apply Forall_app in Hp; destruct Hp as (Hp & Ha); inversion Ha as [|? ? Ha' _]; subst.
    - exact (use_sound _ _ _ _ (IH Hs Hp) Ha' E).
    - exact (cut_sound _ _ _ (IH Hs Hp) Ha' E).
  Qed.

  Lemma stopped_products_proof caching x s0 l s vs : made x -> build n caching NotGiven x = Ok s0 -> endured maxiter rtol d s0 l s -> List.Forall (fun e => proper_use d (used e)) l ->
    List.Forall (proper_input d) vs -> exists fuel us s', products fuel maxiter rtol d s vs = Some (Ok us, s') /\ Forall2 (direct fuel maxiter rtol d made) vs us.
  Proof.
    intros Hx [= <-] He Hp Hv. pose proof (endured_sound _ _ _ He (new_sound d alpha beta eps mu chi maxiter rtol caching x Hx) Hp) as Hs.
    destruct (products_step d alpha beta eps mu chi Hd Hl maxiter rtol Ht vs s Hs Hv) as (F & us & s1 & E1 & _ & D). exists F, us, s1. split; [|exact D].
    specialize (E1 0%nat). rewrite Nat.add_0_r in E1. exact E1.
  Qed.
  Lemma stopped_array_proof caching x s0 l s : made x -> build n caching NotGiven x = Ok s0 -> endured maxiter rtol d s0 l s -> List.Forall (fun e => proper_use d (used e)) l ->
    exists fuel a s', as_array fuel maxiter rtol d s = Some (Ok a, s') /\ forall j, (j < n)%nat -> direct fuel maxiter rtol d made (basis j) (fun i => a i j).
  Proof.
    intros Hx [= <-] He Hp. pose proof (endured_sound _ _ _ He (new_sound d alpha beta eps mu chi maxiter rtol caching x Hx) Hp) as Hs.
    destruct (array_step d alpha beta eps mu chi Hd Hl maxiter rtol Ht s Hs) as (F & us & s1 & E1 & _ & D). exists F. eexists _, s1. specialize (E1 0%nat). rewrite Nat.add_0_r in E1.
    split; [unfold as_array; rewrite E1; reflexivity|]. intros j Hj. exact (direct_nth d alpha beta eps mu chi maxiter rtol F 0 n us D j Hj).
  Qed.
End Device.

(** ** Any material *)
Section Any.
  Variables (d : device) (maxiter : option Z) (rtol : R).
  Let n := n_elements (optics_of d).
  Lemma product_same fuel s v r s' b c : product_column fuel maxiter rtol d s v = Some (r, s') -> lookup b (sm_columns s) = Some c -> lookup b (sm_columns s') = Some c.
  Proof.
    unfold product_column. destruct (non_zeros _ v) as [|b0 more]; [intros [= _ <-]; auto|].
    set (bi := match more with [] => if sm_caching s then Some b0 else None | _ :: _ => None end).
    destruct (match bi with Some b1 => lookup b1 (sm_columns s) | None => None end) eqn:Eh; [intros [= _ <-]; auto|].
    destruct (column _ _ _ _ _ _) as [[[u|e] x]|]; [| |discriminate]; [|intros [= _ <-]; auto]. intros [= _ <-] Hb. destruct bi as [b1|]; [|exact Hb].
    cbn [sm_columns keep_column with_solution lookup]. destruct (Nat.eqb_spec b1 b) as [->|N]; [congruence|exact Hb].
  Qed.
  Lemma products_same fuel vs b c : forall s r s', products fuel maxiter rtol d s vs = Some (r, s') -> lookup b (sm_columns s) = Some c -> lookup b (sm_columns s') = Some c.
  Proof.
    induction vs as [|v vs IH]; intros s r s' H Hb; cbn [products] in H; [injection H as _ <-; exact Hb|].
    destruct (product_column fuel maxiter rtol d s v) as [[[u|e] s1]|] eqn:E; [| |discriminate]; pose proof (product_same _ _ _ _ _ b c E Hb) as H1; [|injection H as _ <-; exact H1].
    destruct (products fuel maxiter rtol d s1 vs) as [[r' s2]|] eqn:E2; [|discriminate]. injection H as _ <-. exact (IH _ _ _ E2 H1).
  Qed.
  Lemma column_cut_same s v s' b c : column_cut maxiter rtol d s v s' -> lookup b (sm_columns s) = Some c -> lookup b (sm_columns s') = Some c.
  Proof. intros [|y _|fuel r t E|fuel r t E] H; try exact H. exact (product_same _ _ _ _ _ _ _ E H). Qed.
  Lemma products_cut_same s vs k s' b c : products_cut maxiter rtol d s vs k s' -> lookup b (sm_columns s) = Some c -> lookup b (sm_columns s') = Some c.
  Proof.
    induction 1 as [s v vs s' Hc|s v vs fuel u s1 k s' E _ IH|s]; intros H; [exact (column_cut_same _ _ _ _ _ Hc H)| |exact H].
    apply IH. exact (product_same _ _ _ _ _ _ _ E H).
  Qed.
  Lemma endured_same s l s' b c : endured maxiter rtol d s l s' -> lookup b (sm_columns s) = Some c -> lookup b (sm_columns s') = Some c.
  Proof.
    induction 1 as [|l t fuel a t' _ IH E|l t a t' _ IH E]; intros H; [exact H| |]; specialize (IH H).
    - destruct a as [vs|b'|]; cbn [apply_use] in E.
      + destruct (products fuel maxiter rtol d t vs) as [[r q]|] eqn:Ep; [|discriminate]. injection E as <-. exact (products_same _ _ _ _ _ _ _ Ep IH).
      + injection E as <-. exact IH.
      + unfold as_array, fill_array in E. destruct (products fuel maxiter rtol d t _) as [[r q]|] eqn:Ep; [|discriminate]. injection E as <-. exact (products_same _ _ _ _ _ _ _ Ep IH).
    - destruct a as [vs|b'|]; cbn [use_cut] in E.
      + destruct E as (k & E). exact (products_cut_same _ _ _ _ _ _ E IH).
      + destruct E as [->| ->]; exact IH.
      + destruct E as (k & E). exact (products_cut_same _ _ _ _ _ _ E IH).
  Qed.
  Lemma product_stores fuel s v u s1 b : sm_caching s = true -> along n b v -> product_column fuel maxiter rtol d s v = Some (Ok u, s1) ->
    exists c, lookup b (sm_columns s1) = Some c.
  Proof.
    intros Hc Hv. unfold product_column. fold n. rewrite (proj2 (non_zeros_one n v b) Hv), Hc. destruct (lookup b (sm_columns s)) as [c|] eqn:Eb; [intros [= _ <-]; exists c; exact Eb|].
    destruct (column _ _ _ _ _ _) as [[[w|e] x]|]; [|discriminate|discriminate]. intros [= _ <-]. cbn [sm_columns keep_column with_solution lookup]. rewrite Nat.eqb_refl. eauto.
  Qed.
  Lemma product_caching fuel s v r s1 : product_column fuel maxiter rtol d s v = Some (r, s1) -> sm_caching s1 = sm_caching s.
  Proof.
    unfold product_column. destruct (non_zeros _ v) as [|b0 more]; [intros [= _ <-]; auto|].
    set (bi := match more with [] => if sm_caching s then Some b0 else None | _ :: _ => None end).
    destruct (match bi with Some b1 => lookup b1 (sm_columns s) | None => None end) eqn:Eh; [intros [= _ <-]; auto|].
    destruct (column _ _ _ _ _ _) as [[[u|e] x]|]; [| |discriminate]; [|intros [= _ <-]; auto]. intros [= _ <-]. destruct bi; reflexivity.
  Qed.
  Lemma known_again s b c w : sm_caching s = true -> lookup b (sm_columns s) = Some c -> along n b w -> products 0 maxiter rtol d s [w] = Some (Ok [fun i => c i * w b], s).
  Proof. intros Hc Hb Hw. cbn [products]. rewrite (product_known d maxiter rtol 0 s w b c Hc Hw Hb). reflexivity. Qed.
  Lemma stopped_once_proof fuel s v u s1 b l s2 w : sm_caching s = true -> along n b v -> product_column fuel maxiter rtol d s v = Some (Ok u, s1) ->
    endured maxiter rtol d s1 l s2 -> sm_caching s2 = true -> along n b w ->
    exists u', products 0 maxiter rtol d s2 [w] = Some (Ok [u'], s2) /\ product_column 0 maxiter rtol d (switch_caching true s1) w = Some (Ok u', switch_caching true s1).
  Proof.
    intros Hc Hv E He H2 Hw. destruct (product_stores _ _ _ _ _ _ Hc Hv E) as (c & Hb). exists (fun i => c i * w b).
    split; [exact (known_again s2 b c w H2 (endured_same _ _ _ b c He Hb) Hw)|]. exact (product_known d maxiter rtol 0 (switch_caching true s1) w b c eq_refl Hw Hb).
  Qed.
  Lemma stopped_progress_proof s vs k s' : products_cut maxiter rtol d s vs k s' -> sm_caching s = true -> forall j v b w, (j < k)%nat -> nth_error vs j = Some v -> along n b v -> along n b w ->
    exists u, products 0 maxiter rtol d s' [w] = Some (Ok [u], s').
  Proof.
    intros H Hc j v b w Hj Hv Hb Hw.
    assert (sm_caching s' = true /\ exists c, lookup b (sm_columns s') = Some c) as (C' & c & Lc).
    { revert j Hj Hv Hc. induction H as [s v0 vs s' Hcut|s v0 vs fuel u s1 k s' E Hcut IH|s]; intros j Hj Hv Hc; [lia| |lia].
      pose proof (product_caching _ _ _ _ _ E) as C1. destruct j as [|j].
      - cbn in Hv. injection Hv as ->. destruct (product_stores _ _ _ _ _ _ Hc Hb E) as (c & Lc). split; [|exists c; exact (products_cut_same _ _ _ _ _ _ Hcut Lc)].
        clear IH. rewrite Hc in C1. clear - Hcut C1. induction Hcut as [s v0 vs s' [|y _|fuel r t E|fuel r t E]|s v0 vs fuel u s1 k s' E _ IH|s]; try exact C1.
        + rewrite (product_caching _ _ _ _ _ E). exact C1.
        + apply IH. rewrite (product_caching _ _ _ _ _ E). exact C1.
      - apply (IH j ltac:(lia) Hv). rewrite C1. exact Hc. }
    exists (fun i => c i * w b). exact (known_again s' b c w C' Lc Hw).
  Qed.
  Lemma stopped_given_proof x A l s fuel : forall s0, build n true (GivenTable n n A) x = Ok s0 -> endured maxiter rtol d s0 l s -> sm_caching s = true ->
    exists a, as_array fuel maxiter rtol d s = Some (Ok a, s) /\ forall i j, (i < n)%nat -> (j < n)%nat -> a i j = A i j.
  Proof.
    intros s0. unfold build. rewrite Nat.eqb_refl. cbn [andb]. intros [= <-] He Hc.
    destruct (known_array d maxiter rtol fuel s (fun j i => A i j) Hc) as (us & E & Hu).
    { intros b Hb. apply (endured_same _ _ _ b _ He). cbn [sm_columns]. apply (lookup_found (fun j i => A i j)). lia. }
    eexists. split; [unfold as_array, fill_array; fold n; unfold n; rewrite E; reflexivity|]. intros i j Hi Hj. cbn [rmap snd]. apply Hu. exact Hj.
  Qed.
End Any.

(** One interrupted iteration. *)
Lemma stopped_iteration_proof lib aligned junk u s fresh y : lived lib aligned junk u (start s) [Cut fresh] y -> halted s (solution_of (now y)).
Proof.
  intros H. pose proof (proj2 (lived_past lib aligned junk u s _ y H)) as P. cbn in P. remember [Broken] as l eqn:El. destruct P as [|l t a P|l t t' P Hh]; [discriminate| |].
  - apply (app_inj_tail l []) in El. destruct El as (_ & El). discriminate.
  - apply (app_inj_tail l []) in El. destruct El as (-> & _). remember (@nil happening) as l eqn:El. destruct P as [|l t a P|l t t0 P Hh']; [exact Hh| |]; destruct l; discriminate.
Qed.

Lemma stopped_switch_proof d maxiter rtol s b s' : use_cut maxiter rtol d s (UCaching b) s' ->
  (sm_caching s' = sm_caching s \/ sm_caching s' = b) /\ sm_columns s' = sm_columns s /\ sm_solution s' = sm_solution s.
Proof. cbn [use_cut]. intros [->| ->]; cbn; auto. Qed.
