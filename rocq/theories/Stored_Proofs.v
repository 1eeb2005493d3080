(** Proofs about scattering matrices with a cache. *)
From Coq Require Import Reals List Arith ZArith Bool Lia Lra FunctionalExtensionality.
Require Import Verif.Base Verif.Cplx Verif.CSum Verif.Field Verif.Fourier_Model Verif.Fourier_Spec Verif.Fourier_Proofs.
Require Import Verif.Vec_Model Verif.Vec_Spec Verif.Vec_Proofs Verif.Solver_Model Verif.Solver_Spec Verif.Solver_Proofs.
Require Import Verif.Derived_Model Verif.Derived_Spec Verif.Run_Model Verif.Run_Spec Verif.Run_Proofs Verif.Run_Solve.
Require Import Verif.Symmetry_Spec Verif.Bright_Spec Verif.Bright_Proofs.
Require Import Verif.Matrix_Model Verif.Matrix_Spec Verif.Matrix_Cache Verif.Modes_Model Verif.Modes_Spec Verif.Modes_Proofs Verif.Modes_Fields Verif.Scatter_Model Verif.Scatter_Spec Verif.Scatter_Proofs.
Require Import Verif.Stored_Model Verif.Stored_Spec.
Import ListNotations.
Local Open Scope R_scope.
Local Open Scope C_scope.

Lemma Cmul_zero (a z : C) : a <> RtoC 0 -> a * z = 0 -> z = 0.
Proof. intros Ha H. transitivity (/ a * (a * z)); [field; exact Ha|]. rewrite H. ring. Qed.
(** ** Multiples of a vector *)
Definition vtimes (a : C) (v : vec) : vec := fun i => a * v i.
Lemma vtimes_comb a v : vtimes a v = vcomb a 0 v v.
Proof. apply functional_extensionality. intros i. unfold vtimes, vcomb. ring. Qed.
Lemma side_scale o a v side c q : a <> RtoC 0 -> valid o -> significant o v side -> significant o (vtimes a v) side ->
  side_field o (vtimes a v) side c q = a * side_field o v side c q.
Proof.
  intros Ha V H1 H2. destruct (significant_cases o v side V H1) as [Z|Z].
  - rewrite !side_field_zero; [ring|exact Z|]. intros j p Hj Hp. unfold vtimes, element. specialize (Z j p Hj Hp). unfold element in Z. rewrite Z. ring.
  - destruct (significant_cases o (vtimes a v) side V H2) as [Z'|Z'].
    + exfalso. assert (E : element_zero o v side).
      { intros j p Hj Hp. specialize (Z' j p Hj Hp). unfold element, vtimes in Z'. unfold element. exact (Cmul_zero a _ Ha Z'). }
      rewrite (negligible_zero o (amplitude o v side)) in Z by (apply amplitude_zero; exact E). discriminate.
    + unfold side_field. rewrite Z, Z'. destruct q as [|x r]; [ring|].
      change (side_lin o (vtimes a v) side c x r = a * side_lin o v side c x r). rewrite vtimes_comb, side_lin_comb. ring.
Qed.
Lemma only_scale o side a v : only_side o side (vtimes a v) = vtimes a (only_side o side v).
Proof. apply functional_extensionality. intros i. unfold only_side, vtimes. destruct (_ =? _)%nat; ring. Qed.
Definition heard (o : optics) (v : vec) : Prop := significant o v 0 /\ significant o v 1.
Lemma freespace_scale o a v side c q : a <> RtoC 0 -> valid o -> heard o v -> heard o (vtimes a v) ->
  srcvec2freespace o (only_side o side (vtimes a v)) c q = a * srcvec2freespace o (only_side o side v) c q.
Proof.
  intros Ha V (A0 & A1) (B0 & B1). unfold srcvec2freespace. rewrite only_scale.
  rewrite !side_scale; [ring|assumption|assumption|apply significant_only; assumption|rewrite <- only_scale; apply significant_only; assumption|assumption|assumption|apply significant_only; assumption|rewrite <- only_scale; apply significant_only; assumption].
Qed.
(** ** More fuel *)
Lemma product_more F k maxiter rtol d s v r : product_column F maxiter rtol d s v = Some r -> product_column (F + k) maxiter rtol d s v = Some r.
Proof.
  unfold product_column. destruct (non_zeros _ v) as [|b more]; [auto|].
  destruct (match match more with [] => _ | _ => _ end with Some b0 => _ | None => _ end); [auto|].
  destruct (column F maxiter rtol d (sm_solution s) v) as [p|] eqn:E; [|discriminate]. rewrite (column_more _ _ _ _ _ _ _ E k). auto.
Qed.
Lemma products_more F k maxiter rtol d vs : forall s r, products F maxiter rtol d s vs = Some r -> products (F + k) maxiter rtol d s vs = Some r.
Proof.
  induction vs as [|v vs IH]; intros s r H; [exact H|]. cbn [products] in *.
  destruct (product_column F maxiter rtol d s v) as [[[u|e] s1]|] eqn:Ec; [| |discriminate]; rewrite (product_more _ k _ _ _ _ _ _ Ec); [|exact H].
  destruct (products F maxiter rtol d s1 vs) as [[q s2]|] eqn:E; [|discriminate]. rewrite (IH _ _ E). exact H.
Qed.
Lemma uses_more F k maxiter rtol d l : forall s s', after_uses F maxiter rtol d s l = Some s' -> after_uses (F + k) maxiter rtol d s l = Some s'.
Proof.
  induction l as [|a l IH]; intros s s' H; [exact H|]. cbn [after_uses] in *. destruct (apply_use F maxiter rtol d s a) as [s1|] eqn:E; [|discriminate].
  assert (apply_use (F + k) maxiter rtol d s a = Some s1) as ->; [|apply IH; exact H].
  destruct a as [vs|c|]; cbn [apply_use] in *; [|exact E|].
  - destruct (products F maxiter rtol d s vs) as [r|] eqn:E'; [|discriminate]. rewrite (products_more _ k _ _ _ _ _ _ E'). exact E.
  - unfold as_array, fill_array in *. destruct (products F maxiter rtol d s _) as [[r q]|] eqn:E'; [|discriminate]. rewrite (products_more _ k _ _ _ _ _ _ E'). exact E.
Qed.
Lemma lookup_columns (f : nat -> vec) m : forall k b c, lookup b (map (fun j => (j, f j)) (seq k m)) = Some c -> c = f b /\ (k <= b < k + m)%nat.
Proof.
  induction m as [|m IH]; intros k b c H; cbn in H; [discriminate|]. destruct (Nat.eqb_spec k b) as [E|E].
  - injection H as <-. subst. split; [reflexivity|lia].
  - destruct (IH _ _ _ H) as (-> & ?). split; [reflexivity|lia].
Qed.
Lemma lookup_found (f : nat -> vec) m : forall k b, (k <= b < k + m)%nat -> lookup b (map (fun j => (j, f j)) (seq k m)) = Some (f b).
Proof.
  induction m as [|m IH]; intros k b H; [lia|]. cbn. destruct (Nat.eqb_spec k b) as [E|E]; [subst; reflexivity|]. apply IH. lia.
Qed.
Section Device.
  Variables (d : device) (alpha : C) (beta : R) (eps mu : tensor) (chi : option sfield).
  Hypothesis Hd : well_laid d.
  Hypothesis Hl : lossy d alpha beta eps mu.
  Variables (maxiter : option Z) (rtol : R).
  Hypothesis Ht : (0 < rtol)%R.
  Let o := optics_of d.
  Let n := n_elements o.
  Let made := made_of d alpha beta eps mu chi.

  Lemma source_scale a v : a <> RtoC 0 -> audible d v -> audible d (vtimes a v) -> source_of d (vtimes a v) = times a (source_of d v).
  Proof.
    intros Ha (A0 & A1) (B0 & B1). fold o in A0, A1, B0, B1. unfold source_of, srcvec2source. fold o.
    change (fun i => v i * (RtoC (cosine o ((i / n_pol o) mod n_modes o)) * source_amplitude d)) with (scaledv d v).
    assert (E : (fun i => vtimes a v i * (RtoC (cosine o ((i / n_pol o) mod n_modes o)) * source_amplitude d)) = vtimes a (scaledv d v)).
    { apply functional_extensionality. intros i. unfold vtimes, scaledv. fold o. ring. }
    rewrite E. assert (Hv : heard o (scaledv d v)) by (split; apply significant_scaled; assumption).
    assert (Hw : heard o (vtimes a (scaledv d v))).
    { rewrite <- E. split; apply (significant_scaled d Hd (vtimes a v)); assumption. }
    apply functional_extensionality. intros c. apply functional_extensionality. intros q. unfold times. destruct q as [|x r]; [ring|].
    destruct Hd as (_ & V & _). destruct (x =? back_source d)%nat; [|destruct (x =? front_source d)%nat; [|ring]]; apply freespace_scale; assumption.
  Qed.
  Lemma non_zeros_scale a v : a <> RtoC 0 -> non_zeros n (vtimes a v) = non_zeros n v.
  Proof.
    intros Ha. unfold non_zeros. apply filter_ext. intros i. unfold vtimes. destruct (Ceqb_spec (a * v i) 0) as [H|H], (Ceqb_spec (v i) 0) as [K|K]; try reflexivity; exfalso.
    - apply K. exact (Cmul_zero a _ Ha H).
    - apply H. rewrite K. ring.
  Qed.
  Lemma scatter_scale a E v : a <> RtoC 0 -> audible d v -> audible d (vtimes a v) -> scatter o (fun _ => times a E) (vtimes a v) = vtimes a (scatter o (fun _ => E) v).
  Proof.
    intros Ha A B. apply functional_extensionality. intros i. unfold scatter, detfield2detvec.
    assert (F : outward o (fun _ => times a E) (vtimes a v) = combination a 0 (outward o (fun _ => E) v) (outward o (fun _ => E) v)).
    { apply functional_extensionality. intros c. apply functional_extensionality. intros q. unfold outward, combination, times. destruct Hd as (_ & V & _).
      rewrite !freespace_scale by (try exact Ha; try exact V; try exact A; exact B).
      repeat match goal with |- context [if ?b then _ else _] => destruct b end; ring. }
    rewrite F, detected_comb. unfold vtimes. ring.
  Qed.
  Lemma column_scale fuel a x v : a <> RtoC 0 -> audible d v -> audible d (vtimes a v) ->
    column fuel maxiter rtol d x (vtimes a v) =
    match column fuel maxiter rtol d x v with
    | None => None
    | Some (r, x') => Some (rmap (vtimes a) r, if (length (non_zeros n v) =? 0)%nat then x' else amplified a x')
    end.
  Proof.
    intros Ha A B. unfold column. fold o. change (n_elements o) with n. rewrite non_zeros_scale by exact Ha. destruct (length (non_zeros n v) =? 0)%nat.
    { cbn [rmap]. do 3 f_equal. apply functional_extensionality. intros i. unfold zero_vec, vtimes. ring. }
    unfold source2detfield. rewrite source_scale by assumption.
    assert (E : set_E (set_source x (times a (source_of d v))) (fun _ _ => 0) = amplified a (set_E (set_source x (source_of d v)) (fun _ _ => 0))).
    { unfold set_E, set_source, set_prev_norm, set_operators, set_field, amplified, Run_Model.with_source, amplified_ops. cbn. f_equal; [f_equal|]; apply functional_extensionality; intros c; apply functional_extensionality; intros p; unfold times; ring. }
    rewrite E, (br_loop a Ha _ (br_limits a Ha maxiter rtol)).
    destruct (loop fuel (limits maxiter rtol) true tt (set_E (set_source x (source_of d v)) (fun _ _ => 0))) as [[w y|w y e]|]; [| |reflexivity]; cbn [option_map amplified_outcome rmap]; [|reflexivity].
    rewrite br_get_E, scatter_scale by assumption. reflexivity.
  Qed.

  (** ** The cache *)
  (** The columns in the cache are those of the matrix. *)
  Definition sound (s : smatrix) : Prop := made (sm_solution s) /\
    forall b c, lookup b (sm_columns s) = Some c -> (b < n)%nat -> exists F, direct F maxiter rtol d made (basis b) c.
  Lemma direct_more F k v u : direct F maxiter rtol d made v u -> direct (F + k) maxiter rtol d made v u.
  Proof. intros H y Hy. destruct (H y Hy) as (w & y' & E & Hw). exists w, y'. split; [apply column_more; exact E|exact Hw]. Qed.
  Lemma along_vtimes b v : vector_of n v -> non_zeros n v = [b] -> v = vtimes (v b) (basis b) /\ (b < n)%nat /\ v b <> RtoC 0.
  Proof.
    intros Hv H. apply non_zeros_one in H. pose proof (along_scaled n b v H) as Hs. destruct H as (Hb & Hn & _). split; [|split; assumption].
    apply functional_extensionality. intros i. unfold vtimes. destruct (Nat.lt_ge_cases i n) as [L|L]; [apply Hs; exact L|]. rewrite Hv by exact L.
    unfold basis. destruct (Nat.eqb_spec i b) as [E|E]; [lia|ring].
  Qed.
  Lemma basis_audible b : (b < n)%nat -> audible d (basis b).
  Proof.
    intros Hb. unfold n, n_elements in Hb. set (h := (n_modes o * n_pol o)%nat) in *. split; unfold significant; fold o h; destruct (Nat.lt_ge_cases b h) as [L|L].
    - right. exists b. split; [exact L|]. unfold basis. replace (0 * h + b)%nat with b by lia. rewrite Nat.eqb_refl, Cmod_1. lra.
    - left. intros i Hi. unfold basis. destruct (Nat.eqb_spec (0 * h + i) b); [lia|reflexivity].
    - left. intros i Hi. unfold basis. destruct (Nat.eqb_spec (1 * h + i) b); [lia|reflexivity].
    - right. exists (b - h)%nat. split; [lia|]. unfold basis. replace (1 * h + (b - h))%nat with b by lia. rewrite Nat.eqb_refl, Cmod_1. lra.
  Qed.
  Lemma basis_proper b : (b < n)%nat -> proper_input d (basis b).
  Proof.
    intros Hb. split; [|apply basis_audible; exact Hb]. intros i Hi. unfold basis. destruct (Nat.eqb_spec i b) as [E|E]; [|reflexivity]. unfold n, o in Hb. lia.
  Qed.
  Lemma direct_scale F a v u w : a <> RtoC 0 -> audible d v -> audible d (vtimes a v) -> direct F maxiter rtol d made v u -> same n w (vtimes a u) ->
    direct F maxiter rtol d made (vtimes a v) w.
  Proof.
    intros Ha A B H Hw y Hy. destruct (H y Hy) as (z & y' & E & Hz). rewrite column_scale by assumption. rewrite E. eexists _, _. split; [reflexivity|].
    intros i Hi. rewrite (Hw i Hi). unfold vtimes. rewrite (Hz i Hi). reflexivity.
  Qed.
  Lemma product_step s v : sound s -> proper_input d v -> exists F u s', (forall k, product_column (F + k) maxiter rtol d s v = Some (Ok u, s')) /\
    sound s' /\ direct F maxiter rtol d made v u.
  Proof.
    intros (Hs & Hc) (Hv & Av). fold o n in Hv. unfold product_column. fold o n. destruct (non_zeros n v) as [|b more] eqn:En.
    - exists 0%nat, zero_vec, s. split; [reflexivity|]. split; [split; assumption|]. intros y Hy. exists zero_vec, y. split; [|intros i Hi; reflexivity].
      unfold column. fold o. change (n_elements o) with n. rewrite En. reflexivity.
    - set (bi := match more with [] => if sm_caching s then Some b else None | _ :: _ => None end).
      assert (Hbi : forall b', bi = Some b' -> b' = b /\ more = []).
      { unfold bi. destruct more; [|discriminate]. destruct (sm_caching s); [|discriminate]. intros b' [= ->]. auto. }
      destruct (match bi with Some b0 => lookup b0 (sm_columns s) | None => None end) as [c|] eqn:Eh.
      + destruct bi as [b'|] eqn:Eb; [|discriminate]. destruct (Hbi b' eq_refl) as (-> & ->). destruct (along_vtimes b v Hv En) as (Ev & Hb & Hn).
        destruct (Hc b c Eh Hb) as (F & HF). exists F, (fun i => c i * v b), s. split; [reflexivity|]. split; [split; assumption|].
        assert (Aw : audible d (vtimes (v b) (basis b))) by (rewrite <- Ev; exact Av).
        pose proof (direct_scale F (v b) (basis b) c (fun i => c i * v b) Hn (basis_audible b Hb) Aw HF) as HD. rewrite <- Ev in HD. apply HD.
        intros i Hi. unfold vtimes. ring.
      + destruct (column_exists d alpha beta eps mu chi Hd Hl (sm_solution s) v maxiter rtol Hs Ht) as (F & u & x & E & Hx).
        assert (HD : direct F maxiter rtol d made v u).
        { intros y Hy. destruct (column_made d alpha beta eps mu chi F maxiter rtol _ y v u x Hs Hy E) as (y' & Ey). exists u, y'. split; [exact Ey|intros i Hi; reflexivity]. }
        exists F, u. eexists. split; [intros k; rewrite (column_more _ _ _ _ _ _ _ E k); reflexivity|]. split; [|exact HD].
        destruct bi as [b'|] eqn:Eb; [|split; assumption]. destruct (Hbi b' eq_refl) as (-> & ->). destruct (along_vtimes b v Hv En) as (Ev & Hb & Hn).
        split; [exact Hx|]. cbn [sm_columns keep_column with_solution lookup]. intros b' c. destruct (Nat.eqb_spec b b') as [<-|N]; [|apply Hc].
        intros [= <-] _. exists F. assert (Eb' : basis b = vtimes (/ v b) v).
        { apply functional_extensionality. intros i. pose proof (f_equal (fun f : vec => f i) Ev) as Ei. cbn beta in Ei. unfold vtimes in Ei |- *. rewrite Ei. field. exact Hn. }
        rewrite Eb'. apply direct_scale with u; [intros Q; apply Hn; transitivity (v b * v b * / v b); [field; exact Hn|rewrite Q; ring]|exact Av|rewrite <- Eb'; apply basis_audible; exact Hb|exact HD|].
        intros i Hi. unfold vtimes, Cdiv. ring.
  Qed.
  Lemma products_step vs : forall s, sound s -> List.Forall (proper_input d) vs -> exists F us s', (forall k, products (F + k) maxiter rtol d s vs = Some (Ok us, s')) /\
    sound s' /\ Forall2 (direct F maxiter rtol d made) vs us.
  Proof.
    induction vs as [|v vs IH]; intros s Hs Hv.
    - exists 0%nat, [], s. split; [reflexivity|]. split; [exact Hs|constructor].
    - inversion Hv as [|? ? H1 H2]; subst. destruct (product_step s v Hs H1) as (F1 & u & s1 & E1 & S1 & D1). destruct (IH s1 S1 H2) as (F2 & us & s2 & E2 & S2 & D2).
      exists (F1 + F2)%nat, (u :: us), s2. split; [|split; [exact S2|]].
      + intros k. cbn [products]. rewrite <- Nat.add_assoc, E1. rewrite Nat.add_assoc, (Nat.add_comm F1 F2), <- Nat.add_assoc, E2. reflexivity.
      + constructor; [apply direct_more; exact D1|]. clear - D2. induction D2 as [|v' u' l l' H _ IHF]; constructor; [|exact IHF]. rewrite Nat.add_comm. apply direct_more. exact H.
  Qed.
  Lemma array_step s : sound s -> exists F us s', (forall k, fill_array (F + k) maxiter rtol d s = Some (Ok ((fun i j => nth i us zero_vec j), (fun i j => nth j us zero_vec i)), s')) /\
    sound s' /\ Forall2 (direct F maxiter rtol d made) (map basis (seq 0 n)) us.
  Proof.
    intros Hs. destruct (products_step (map basis (seq 0 n)) s Hs) as (F & us & s' & E & S' & D).
    { apply List.Forall_forall. intros v Hv. apply in_map_iff in Hv. destruct Hv as (b & <- & Hb). apply in_seq in Hb. apply basis_proper. lia. }
    exists F, us, s'. split; [|split; assumption]. intros k. unfold fill_array. fold o n. rewrite E. reflexivity.
  Qed.
  Lemma uses_step l : forall s, sound s -> List.Forall (proper_use d) l -> exists F s', (forall k, after_uses (F + k) maxiter rtol d s l = Some s') /\ sound s'.
  Proof.
    induction l as [|a l IH]; intros s Hs Hl'.
    - exists 0%nat, s. split; [reflexivity|exact Hs].
    - inversion Hl' as [|? ? H1 H2]; subst.
      assert (exists F1 s1, (forall k, apply_use (F1 + k) maxiter rtol d s a = Some s1) /\ sound s1) as (F1 & s1 & E1 & S1).
      { destruct a as [vs|b|].
        - destruct (products_step vs s Hs H1) as (F & us & s' & E & S' & _). exists F, s'. split; [|exact S']. intros k. cbn [apply_use]. rewrite E. reflexivity.
        - exists 0%nat, (switch_caching b s). split; [reflexivity|exact Hs].
        - destruct (array_step s Hs) as (F & us & s' & E & S' & _). exists F, s'. split; [|exact S']. intros k. cbn [apply_use]. unfold as_array. rewrite E. reflexivity. }
      destruct (IH s1 S1 H2) as (F2 & s2 & E2 & S2). exists (F1 + F2)%nat, s2. split; [|exact S2].
      intros k. cbn [after_uses]. rewrite <- Nat.add_assoc, E1. rewrite Nat.add_assoc, (Nat.add_comm F1 F2), <- Nat.add_assoc. apply E2.
  Qed.
  Lemma new_sound caching x : made x -> sound {| sm_caching := caching; sm_columns := []; sm_solution := x |}.
  Proof. intros Hx. split; [exact Hx|]. intros b c H. discriminate H. Qed.
  Lemma cached_products_proof caching uses vs x : made x -> List.Forall (proper_use d) uses -> List.Forall (proper_input d) vs ->
    exists fuel s0 s us s', build n caching NotGiven x = Ok s0 /\ after_uses fuel maxiter rtol d s0 uses = Some s /\
      products fuel maxiter rtol d s vs = Some (Ok us, s') /\ Forall2 (direct fuel maxiter rtol d made) vs us.
  Proof.
    intros Hx Hu Hv. destruct (uses_step uses _ (new_sound caching x Hx) Hu) as (F1 & s & E1 & S1). destruct (products_step vs s S1 Hv) as (F2 & us & s' & E2 & _ & D).
    exists (F2 + F1)%nat, {| sm_caching := caching; sm_columns := []; sm_solution := x |}, s, us, s'. split; [reflexivity|]. split; [rewrite Nat.add_comm; apply E1|]. split; [apply E2|].
    clear - D. induction D as [|v u l l' H _ IH]; constructor; [|exact IH]. apply direct_more. exact H.
  Qed.
  Lemma direct_nth F k m : forall l, Forall2 (direct F maxiter rtol d made) (map basis (seq k m)) l -> forall c, (c < m)%nat -> direct F maxiter rtol d made (basis (k + c)) (nth c l zero_vec).
  Proof.
    revert k. induction m as [|m IH]; intros k l HF c' Hc'; [lia|]. cbn in HF. inversion HF as [|? ? ? ? H1 H2]; subst. destruct c' as [|c']; [rewrite Nat.add_0_r; exact H1|].
    cbn [nth]. replace (k + Datatypes.S c')%nat with (Datatypes.S k + c')%nat by lia. apply IH; [exact H2|lia].
  Qed.
  Lemma array_columns_proof caching uses x : made x -> List.Forall (proper_use d) uses ->
    exists fuel s0 s a s', build n caching NotGiven x = Ok s0 /\ after_uses fuel maxiter rtol d s0 uses = Some s /\ as_array fuel maxiter rtol d s = Some (Ok a, s') /\
      forall j, (j < n)%nat -> direct fuel maxiter rtol d made (basis j) (fun i => a i j).
  Proof.
    intros Hx Hu. destruct (uses_step uses _ (new_sound caching x Hx) Hu) as (F1 & s & E1 & S1). destruct (array_step s S1) as (F2 & us & s' & E2 & _ & D).
    exists (F2 + F1)%nat, {| sm_caching := caching; sm_columns := []; sm_solution := x |}, s. eexists _, s'. split; [reflexivity|]. split; [rewrite Nat.add_comm; apply E1|].
    split; [unfold as_array; rewrite E2; reflexivity|]. intros j Hj. apply direct_more. exact (direct_nth F2 0 n us D j Hj).
  Qed.
  Lemma restored_products_proof caching uses vs x y b s0 F s A s1 : made x -> made y ->
    build n b NotGiven x = Ok s0 -> List.Forall (proper_use d) uses -> after_uses F maxiter rtol d s0 uses = Some s ->
    as_array F maxiter rtol d s = Some (Ok A, s1) -> List.Forall (proper_input d) vs ->
    exists fuel t us t', build n caching (GivenTable n n A) y = Ok t /\ products fuel maxiter rtol d t vs = Some (Ok us, t') /\ Forall2 (direct fuel maxiter rtol d made) vs us.
  Proof.
    intros Hx Hy [= <-] Hu Hs HA Hv. destruct (uses_step uses _ (new_sound b x Hx) Hu) as (F1 & s' & E1 & S1).
    assert (s' = s) as ->.
    { pose proof (uses_more _ F1 _ _ _ _ _ _ Hs) as Hm. specialize (E1 F). rewrite Nat.add_comm in E1. congruence. }
    destruct (array_step s S1) as (F2 & us & s2 & E2 & _ & D2).
    assert (HA' : forall i j, A i j = nth j us zero_vec i).
    { intros i j. unfold as_array in HA. destruct (fill_array F maxiter rtol d s) as [[r q]|] eqn:Ef; [|discriminate]. unfold fill_array in Ef. fold o n in Ef.
      destruct (products F maxiter rtol d s (map basis (seq 0 n))) as [[r' q']|] eqn:Ep; [|discriminate]. injection Ef as <- <-.
      specialize (E2 F). unfold fill_array in E2. fold o n in E2. rewrite Nat.add_comm, (products_more _ F2 _ _ _ _ _ _ Ep) in E2. injection E2 as E2 _.
      destruct r' as [us'|e]; [|discriminate]. cbn [rmap snd] in HA. cbn [rmap] in E2. injection HA as <- _. injection E2 as _ E2.
      exact (f_equal (fun f : nat -> nat -> C => f i j) E2). }
    set (t := {| sm_caching := caching; sm_columns := map (fun j => (j, (fun i => A i j) : vec)) (seq 0 n); sm_solution := y |}).
    assert (St : sound t).
    { split; [exact Hy|]. cbn [sm_columns t]. intros c w Hw Hc. destruct (lookup_columns (fun j i => A i j) _ _ _ _ Hw) as (-> & _).
      exists F2. assert (HD : direct F2 maxiter rtol d made (basis c) (nth c us zero_vec)).
      { clear - D2 Hc. assert (forall k m l, Forall2 (direct F2 maxiter rtol d made) (map basis (seq k m)) l -> forall c, (c < m)%nat -> direct F2 maxiter rtol d made (basis (k + c)) (nth c l zero_vec)) as H.
        { intros k m. revert k. induction m as [|m IH]; intros k l HF c' Hc'; [lia|]. cbn in HF. inversion HF as [|? ? ? ? H1 H2]; subst. destruct c' as [|c']; [rewrite Nat.add_0_r; exact H1|].
          cbn [nth]. replace (k + Datatypes.S c')%nat with (Datatypes.S k + c')%nat by lia. apply IH; [exact H2|lia]. }
        exact (H 0%nat n us D2 c Hc). }
      intros z Hz. destruct (HD z Hz) as (w & z' & E & Hw'). exists w, z'. split; [exact E|]. intros i Hi. rewrite HA'. apply Hw'. exact Hi. }
    destruct (products_step vs t St Hv) as (F3 & us' & t' & E3 & _ & D3). exists (F3 + 0)%nat, t, us', t'. split; [|split; [apply E3|rewrite Nat.add_0_r; exact D3]].
    unfold build. rewrite Nat.eqb_refl. reflexivity.
  Qed.
End Device.

(** ** Any material *)
Section Any.
  Variables (d : device) (maxiter : option Z) (rtol : R).
  Let n := n_elements (optics_of d).
  Lemma product_known fuel s v b c : sm_caching s = true -> along n b v -> lookup b (sm_columns s) = Some c -> product_column fuel maxiter rtol d s v = Some (Ok (fun i => c i * v b), s).
  Proof. intros Hc Hv Hb. unfold product_column. fold n. rewrite (proj2 (non_zeros_one n v b) Hv), Hc, Hb. reflexivity. Qed.
  Lemma product_keeps fuel s v r s' b : product_column fuel maxiter rtol d s v = Some (r, s') -> lookup b (sm_columns s) <> None -> lookup b (sm_columns s') <> None.
  Proof.
    unfold product_column. destruct (non_zeros _ v) as [|b0 more]; [intros [= _ <-]; auto|].
    destruct (match match more with [] => _ | _ => _ end with Some b0 => _ | None => _ end); [intros [= _ <-]; auto|].
    destruct (column fuel maxiter rtol d (sm_solution s) v) as [[[u|e] x]|]; [| |discriminate]; intros [= _ <-] H; [|exact H].
    destruct (match more with [] => _ | _ => _ end) as [b1|]; [|exact H]. cbn. destruct (b1 =? b)%nat; [discriminate|exact H].
  Qed.
  Lemma products_keep fuel vs b : forall s r s', products fuel maxiter rtol d s vs = Some (r, s') -> lookup b (sm_columns s) <> None -> lookup b (sm_columns s') <> None.
  Proof.
    induction vs as [|v vs IH]; intros s r s' H Hb; cbn [products] in H; [injection H as _ <-; exact Hb|].
    destruct (product_column fuel maxiter rtol d s v) as [[[u|e] s1]|] eqn:E; [| |discriminate]; pose proof (product_keeps _ _ _ _ _ b E Hb) as H1; [|injection H as _ <-; exact H1].
    destruct (products fuel maxiter rtol d s1 vs) as [[q s2]|] eqn:E2; [|discriminate]. injection H as _ <-. exact (IH _ _ _ E2 H1).
  Qed.
  Lemma uses_keep fuel l b : forall s s', after_uses fuel maxiter rtol d s l = Some s' -> lookup b (sm_columns s) <> None -> lookup b (sm_columns s') <> None.
  Proof.
    induction l as [|a l IH]; intros s s' H Hb; cbn [after_uses] in H; [injection H as <-; exact Hb|].
    destruct (apply_use fuel maxiter rtol d s a) as [s1|] eqn:E; [|discriminate]. apply (IH _ _ H). destruct a as [vs|c|]; cbn [apply_use] in E.
    - destruct (products fuel maxiter rtol d s vs) as [[q s2]|] eqn:E2; [|discriminate]. injection E as <-. exact (products_keep _ _ _ _ _ _ E2 Hb).
    - injection E as <-. exact Hb.
    - unfold as_array, fill_array in E. destruct (products fuel maxiter rtol d s _) as [[q s2]|] eqn:E2; [|discriminate]. injection E as <-. exact (products_keep _ _ _ _ _ _ E2 Hb).
  Qed.
  Lemma column_once_proof fuel s v u s1 b l s2 w : sm_caching s = true -> along n b v -> product_column fuel maxiter rtol d s v = Some (Ok u, s1) ->
    after_uses fuel maxiter rtol d s1 l = Some s2 -> sm_caching s2 = true -> along n b w -> exists u', products 0 maxiter rtol d s2 [w] = Some (Ok [u'], s2).
  Proof.
    intros Hc Hv H Hl H2 Hw. assert (H1 : lookup b (sm_columns s1) <> None).
    { destruct (lookup b (sm_columns s)) as [c|] eqn:E; [apply (product_keeps _ _ _ _ _ b H); rewrite E; discriminate|].
      revert H. unfold product_column. fold n. rewrite (proj2 (non_zeros_one n v b) Hv), Hc, E. destruct (column fuel maxiter rtol d (sm_solution s) v) as [[[r|e] x]|]; [|discriminate|discriminate].
      intros [= _ <-]. cbn. rewrite Nat.eqb_refl. discriminate. }
    pose proof (uses_keep _ _ b _ _ Hl H1) as Hb. destruct (lookup b (sm_columns s2)) as [c|] eqn:E; [|contradiction]. exists (fun i => c i * w b). cbn [products].
    rewrite (product_known 0 s2 w b c H2 Hw E). reflexivity.
  Qed.
  Lemma basis_along b : (b < n)%nat -> along n b (basis b).
  Proof. intros H. apply non_zeros_one, non_zeros_basis. exact H. Qed.
  Lemma known_array fuel s (f : nat -> vec) : sm_caching s = true -> (forall b, (b < n)%nat -> lookup b (sm_columns s) = Some (f b)) ->
    exists us, products fuel maxiter rtol d s (map basis (seq 0 n)) = Some (Ok us, s) /\ forall j i, (j < n)%nat -> nth j us zero_vec i = f j i.
  Proof.
    intros Hc Hb. assert (forall m k, (k + m <= n)%nat -> exists us, products fuel maxiter rtol d s (map basis (seq k m)) = Some (Ok us, s) /\ forall j i, (j < m)%nat -> nth j us zero_vec i = f (k + j)%nat i) as H.
    { induction m as [|m IH]; intros k Hk; [exists []; split; [reflexivity|intros; lia]|]. destruct (IH (Datatypes.S k) ltac:(lia)) as (us & E & H).
      exists ((fun i => f k i * basis k k) :: us). split.
      - cbn [seq map products]. rewrite (product_known fuel s (basis k) k (f k) Hc (basis_along k ltac:(lia)) (Hb k ltac:(lia))), E. reflexivity.
      - intros [|j] i Hj; cbn [nth]; [|rewrite H by lia; f_equal; lia]. rewrite Nat.add_0_r. unfold basis. rewrite Nat.eqb_refl. ring. }
    destruct (H n 0%nat (le_n _)) as (us & E & Hu). exists us. split; [exact E|]. intros j i Hj. apply (Hu j i Hj).
  Qed.
  Lemma stored_array_proof fuel x A : exists s a, build n true (GivenTable n n A) x = Ok s /\ as_array fuel maxiter rtol d s = Some (Ok a, s) /\
    forall i j, (i < n)%nat -> (j < n)%nat -> a i j = A i j.
  Proof.
    unfold build. rewrite Nat.eqb_refl. cbn [andb]. eexists. destruct (known_array fuel {| sm_caching := true; sm_columns := map (fun j => (j, (fun i => A i j) : vec)) (seq 0 n); sm_solution := x |} (fun j i => A i j) eq_refl) as (us & E & Hu).
    { intros b Hb. apply (lookup_found (fun j i => A i j)). lia. }
    exists (fun i j => nth j us zero_vec i). split; [reflexivity|]. split; [unfold as_array, fill_array; fold n; rewrite E; reflexivity|]. intros i j Hi Hj. apply Hu. exact Hj.
  Qed.
  Lemma stored_vector_proof fuel x f : exists s a, build n true (GivenVector n f) x = Ok s /\ as_array fuel maxiter rtol d s = Some (Ok a, s) /\
    forall i j, (i < n)%nat -> (j < n)%nat -> a i j = f j.
  Proof.
    unfold build. rewrite Nat.eqb_refl. eexists. destruct (known_array fuel {| sm_caching := true; sm_columns := map (fun j => (j, (fun _ => f j) : vec)) (seq 0 n); sm_solution := x |} (fun j i => f j) eq_refl) as (us & E & Hu).
    { intros b Hb. apply (lookup_found (fun j i => f j)). lia. }
    exists (fun i j => nth j us zero_vec i). split; [reflexivity|]. split; [unfold as_array, fill_array; fold n; rewrite E; reflexivity|]. intros i j Hi Hj. apply Hu. exact Hj.
  Qed.
  Lemma fill_transposed fuel x A : exists s a r, build n true (GivenTable n n A) x = Ok s /\ fill_array fuel maxiter rtol d s = Some (Ok (a, r), s) /\
    forall i j, (i < n)%nat -> (j < n)%nat -> r i j = A i j /\ a i j = A j i.
  Proof.
    unfold build. rewrite Nat.eqb_refl. cbn [andb]. eexists. destruct (known_array fuel {| sm_caching := true; sm_columns := map (fun j => (j, (fun i => A i j) : vec)) (seq 0 n); sm_solution := x |} (fun j i => A i j) eq_refl) as (us & E & Hu).
    { intros b Hb. apply (lookup_found (fun j i => A i j)). lia. }
    eexists _, _. split; [reflexivity|]. split; [unfold fill_array; fold n; rewrite E; reflexivity|]. intros i j Hi Hj. split; apply Hu; assumption.
  Qed.
  Lemma uncached_proof fuel vs : forall s, sm_caching s = false ->
    products fuel maxiter rtol d s vs = option_map (fun r => (fst r, with_solution s (snd r))) (columns fuel maxiter rtol d (sm_solution s) vs).
  Proof.
    induction vs as [|v vs IH]; intros s Hs; [destruct s; reflexivity|]. cbn [products columns].
    assert (E : product_column fuel maxiter rtol d s v = option_map (fun r => (fst r, with_solution s (snd r))) (column fuel maxiter rtol d (sm_solution s) v)).
    { unfold product_column. rewrite Hs. destruct (non_zeros _ v) as [|b more] eqn:En.
      - unfold column. rewrite En. destruct s. reflexivity.
      - replace (match more with [] => None | _ :: _ => None end : option nat) with (@None nat) by (destruct more; reflexivity).
        destruct (column fuel maxiter rtol d (sm_solution s) v) as [[[u|e] x]|]; reflexivity. }
    rewrite E. destruct (column fuel maxiter rtol d (sm_solution s) v) as [[[u|e] x]|]; [|reflexivity|reflexivity]. cbn [option_map fst snd].
    rewrite (IH (with_solution s x) Hs). cbn [sm_solution with_solution]. destruct (columns fuel maxiter rtol d x vs) as [[r y]|]; reflexivity.
  Qed.
End Any.
