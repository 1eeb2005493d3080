From Coq Require Import Reals Lra Lia List Permutation ZifyBool ZifyNat.
From Flocq Require Import Core.Raux.
From Verif Require Import Base Num Grid_Model Grid_Spec.
Local Open Scope R_scope.
Ltac Zify.zify_post_hook ::= Z.div_mod_to_equations.

(* ---------- helpers ---------- *)
Lemma vall_true n p : vall n p = true <-> forall i, (i < n)%nat -> p i = true.
Proof.
  unfold vall, axes. rewrite forallb_forall. split; intros H i Hi; apply H; rewrite ?in_seq in *; lia.
Qed.

Lemma bind_ok {A B} (x : result A) (f : A -> result B) b :
  bind x f = Ok b -> exists a, x = Ok a /\ f a = Ok b.
Proof. destruct x; simpl; intros H; [eauto|discriminate]. Qed.

Lemma nth_error_nth_map_axes {A} (f : nat -> A) n i d : (i < n)%nat -> nth i (map f (axes n)) d = f i.
Proof.
  intros H. unfold axes. rewrite nth_indep with (d' := f 0%nat) by (rewrite map_length, seq_length; lia).
  rewrite map_nth, seq_nth by lia. reflexivity.
Qed.

Lemma nceil_Z z : nceil (nofZ RN z) = z.
Proof. rewrite RN_nceil. apply Zceil_IZR. Qed.

Lemma nceil_IZR z : nceil (N := RN) (IZR z) = z.
Proof. apply nceil_Z. Qed.

(* ---------- to_ndim ---------- *)
Lemma to_ndim_scalar n d x : to_ndim RN n (AScalar RN d x) = Ok {| tag := d; at_ := fun _ => x |}.
Proof. reflexivity. Qed.

Lemma to_ndim_list n d (l : list R) :
  length l = n ->
  exists v, to_ndim RN n (AVector RN d l) = Ok v /\ tag RN v = d /\ (forall i, (i < n)%nat -> at_ RN v i = nth i l 0).
Proof.
  intros Hl. subst n. destruct l as [|x [|y l]]; unfold to_ndim.
  - rewrite Nat.eqb_refl. eexists; split; [reflexivity|]. split; [reflexivity|]. intros i Hi; inversion Hi.
  - eexists; split; [reflexivity|]. split; [reflexivity|]. intros i Hi. cbn [length] in Hi. destruct i; [reflexivity|lia].
  - rewrite Nat.eqb_refl. eexists; split; [reflexivity|]. split; reflexivity.
Qed.

Lemma to_ndim_b_list n (l : list bool) :
  length l = n ->
  exists v, to_ndim_b n (BVector l) = Ok v /\ (forall i, (i < n)%nat -> v i = nth i l false).
Proof.
  intros Hl. subst n. destruct l as [|x [|y l]]; unfold to_ndim_b.
  - rewrite Nat.eqb_refl. eexists; split; [reflexivity|]. intros i Hi; inversion Hi.
  - eexists; split; [reflexivity|]. intros i Hi. cbn [length] in Hi. destruct i; [reflexivity|lia].
  - rewrite Nat.eqb_refl. eexists; split; [reflexivity|]. reflexivity.
Qed.

(** What [to_ndim] returns is what was requested. *)
Lemma to_ndim_requested n a v i x :
  to_ndim_opt RN n a = Ok v -> (i < n)%nat -> requested a i x -> exists w, v = Some w /\ at_ RN w i = x.
Proof.
  unfold to_ndim_opt, requested. destruct a as [[d y|d l]|]; simpl; [| |contradiction].
  - intros [= <-] _ ->. eauto.
  - destruct l as [|y [|y' l]]; simpl length.
    + destruct (Nat.eqb 0 n) eqn:E; simpl; [|discriminate]. intros _ Hi _. exfalso. apply Nat.eqb_eq in E. lia.
    + intros [= <-] _ ->. eauto.
    + destruct (Nat.eqb _ n) eqn:E; simpl; [|discriminate]. intros [= <-] Hi H. eexists; split; [reflexivity|].
      cbn [at_]. apply nth_error_nth with (d := 0) in H. exact H.
Qed.
Lemma to_ndim_b_requested n b v i x :
  to_ndim_b n b = Ok v -> (i < n)%nat -> requested_flag b i x -> v i = x.
Proof.
  unfold to_ndim_b, requested_flag. destruct b as [y|l].
  - intros [= <-] _ ->. reflexivity.
  - destruct l as [|y [|y' l]]; simpl length.
    + destruct (Nat.eqb 0 n) eqn:E; simpl; [|discriminate]. intros _ Hi _. exfalso. apply Nat.eqb_eq in E. lia.
    + intros [= <-] _ ->. reflexivity.
    + destruct (Nat.eqb _ n) eqn:E; simpl; [|discriminate]. intros [= <-] Hi H.
      apply nth_error_nth with (d := false) in H. exact H.
Qed.

(* ---------- the constructor, inverted ---------- *)
Lemma construct_inv a g :
  construct RN a = Ok g ->
  exists vsh vst vex vfi vce vla fl oac incl cai v s st short ce,
    let n := ndim_of RN a in
    to_ndim_opt RN n (a_shape RN a) = Ok vsh /\ to_ndim_opt RN n (a_step RN a) = Ok vst /\
    to_ndim_opt RN n (a_extent RN a) = Ok vex /\ to_ndim_opt RN n (a_first RN a) = Ok vfi /\
    to_ndim_opt RN n (a_center RN a) = Ok vce /\ to_ndim_opt RN n (a_last RN a) = Ok vla /\
    to_ndim_b n (a_flat RN a) = Ok fl /\ to_ndim_b n (a_origin_at_center RN a) = Ok oac /\
    to_ndim_b n (a_include_last RN a) = Ok incl /\ to_ndim_b n (a_center_at_index RN a) = Ok cai /\
    find_shape RN n incl cai {| v_shape := vsh; v_step := vst; v_extent := vex; v_first := vfi; v_center := vce;
                 v_last := vla; py_step := false |} = Ok v /\
    v_shape RN v = Some s /\
    find_step RN n incl cai (round_shape RN s) v = Ok (st, short) /\
    find_center RN n incl cai (round_shape RN s) st (py_step RN v) v = Ok ce /\
    check_extent RN n (round_shape RN s) st v = Ok tt /\
    check_last RN n incl (round_shape RN s) st v = Ok tt /\
    check_first RN n cai (round_shape RN s) st ce v = Ok tt /\
    py_step RN v = false /\
    g = (let d := if Nat.eqb n 0 then DFlt else join (tag RN st) (tag RN ce) in
      {| ndim := n; shape := round_shape RN s; step := {| tag := d; at_ := at_ RN st |}; center := {| tag := d; at_ := at_ RN ce |};
            flat := fl; origin_at_center := oac; center_at_index := cai;
            multidimensional := multidimensional_of RN a; short_step := short && Nat.ltb 1 n |}).
Proof.
  unfold construct. cbv zeta. intros H.
  apply bind_ok in H as (vsh & H1 & H). apply bind_ok in H as (vst & H2 & H). apply bind_ok in H as (vex & H3 & H).
  apply bind_ok in H as (vfi & H4 & H). apply bind_ok in H as (vce & H5 & H). apply bind_ok in H as (vla & H6 & H).
  apply bind_ok in H as (fl & H7 & H). apply bind_ok in H as (oac & H8 & H). apply bind_ok in H as (incl & H9 & H).
  apply bind_ok in H as (cai & H10 & H). apply bind_ok in H as (v & H11 & H). apply bind_ok in H as (sh & H12 & H).
  apply bind_ok in H as ([st short] & H13 & H). apply bind_ok in H as (ce & H14 & H).
  apply bind_ok in H as ([] & H15 & H). apply bind_ok in H as ([] & H16 & H). apply bind_ok in H as ([] & H17 & H).
  destruct (v_shape RN v) as [s|] eqn:Es; [|discriminate]. injection H12 as <-.
  destruct (py_step RN v) eqn:Ep; [discriminate|]. injection H as <-.
  exists vsh, vst, vex, vfi, vce, vla, fl, oac, incl, cai, v, s, st, short, ce. rewrite Ep.
  repeat (split; [assumption|]). split; reflexivity.
Qed.

(** Arguments that are given survive [find_shape]. *)
Ltac crunch := repeat match goal with
  | H : bind ?x _ = Ok _ |- _ => let E := fresh "E" in apply bind_ok in H as (? & E & H)
  | H : Ok _ = Ok _ |- _ => injection H as <-
  end.

Lemma find_shape_keeps n incl cai v0 v :
  find_shape RN n incl cai v0 = Ok v ->
  (forall x, v_shape RN v0 = Some x -> v_shape RN v = Some x) /\
  (forall x, v_step RN v0 = Some x -> v_step RN v = Some x) /\
  (forall x, v_first RN v0 = Some x -> v_first RN v = Some x) /\
  (forall x, v_center RN v0 = Some x -> v_center RN v = Some x) /\
  (v_last RN v = v_last RN v0).
Proof.
  unfold find_shape. destruct (v_shape RN v0) as [s|] eqn:E1.
  { intros [= <-]. rewrite E1. repeat split; auto. }
  destruct (v_extent RN v0) as [e|] eqn:E2.
  { intros H. crunch. cbn [v_shape v_step v_extent v_first v_center v_last].
    repeat split; auto; try discriminate. intros y ->. reflexivity. }
  destruct (v_step RN v0) as [st|] eqn:E3; destruct (v_last RN v0) as [la|] eqn:E4;
    destruct (v_first RN v0) as [fi|] eqn:E5; destruct (v_center RN v0) as [ce|] eqn:E6; intros H; crunch;
    cbn [v_shape v_step v_extent v_first v_center v_last]; repeat split; auto; try discriminate; intros y [= <-]; auto.
Qed.

(* ---------- agreement with the arguments (C01) ---------- *)
Lemma first_from_center g i :
  first RN g i = center_of g i - center_offset RN (shape RN g i) (center_at_index RN g i) * step_of g i.
Proof.
  unfold first, center_of, step_of, center_offset. rn.
  destruct (center_at_index RN g i); cbn [negb andb]; [ring|].
  destruct (Z.even (shape RN g i)) eqn:E.
  - apply Z.even_spec in E as [k Hk]. rewrite Hk. replace (2 * k / 2)%Z with k by lia.
    rewrite minus_IZR, mult_IZR. field.
  - assert (Z.odd (shape RN g i) = true) as O by (rewrite <- Z.negb_even, E; reflexivity).
    apply Z.odd_spec in O as [k Hk]. rewrite Hk. replace ((2 * k + 1) / 2)%Z with k by lia.
    rewrite minus_IZR, plus_IZR, mult_IZR. field.
Qed.

Theorem construct_agrees a g i :
  construct RN a = Ok g -> (i < ndim RN g)%nat ->
  (1 <= shape RN g i)%Z /\
  (forall s, requested (a_shape RN a) i (IZR s) -> (1 <= s)%Z -> shape RN g i = s) /\
  (forall x, requested (a_step RN a) i x -> step_of g i = x) /\
  (forall x, requested (a_center RN a) i x -> center_of g i = x) /\
  (forall x, requested (a_first RN a) i x -> first RN g i = x) /\
  (forall f l (b : bool), requested (a_first RN a) i f -> requested (a_last RN a) i l -> requested_flag (a_include_last RN a) i b ->
     IZR (shape RN g i) * step_of g i = l + (if b then step_of g i else 0) - f) /\
  (forall b, requested_flag (a_flat RN a) i b -> flat RN g i = b) /\
  (forall b, requested_flag (a_origin_at_center RN a) i b -> origin_at_center RN g i = b) /\
  (forall b, requested_flag (a_center_at_index RN a) i b -> center_at_index RN g i = b).
Proof.
  intros H Hi.
  apply construct_inv in H as (vsh&vst&vex&vfi&vce&vla&fl&oac&incl&cai&v&s&st&short&ce&H). cbv zeta in H.
  destruct H as (H1&H2&H3&H4&H5&H6&H7&H8&H9&H10&H11&H12&H13&H14&H15&H16&H17&H18&->).
  cbn [ndim shape] in *.
  apply find_shape_keeps in H11 as (K1&K2&K3&K4&K5).
  cbn [v_shape v_step v_extent v_first v_center v_last] in *.
  split; [unfold round_shape; lia|].
  split.
  { intros z R1 Hz. destruct (to_ndim_requested _ _ _ _ _ H1 Hi R1) as (w & -> & Hw).
    specialize (K1 _ eq_refl). rewrite K1 in H12. injection H12 as ->.
    unfold round_shape. rewrite Hw. change (IZR z) with (nofZ RN z). rewrite nceil_Z. lia. }
  split.
  { intros x R1. destruct (to_ndim_requested _ _ _ _ _ H2 Hi R1) as (w & -> & Hw).
    specialize (K2 _ eq_refl). unfold find_step in H13. rewrite K2 in H13. injection H13 as <- <-. exact Hw. }
  split.
  { intros x R1. destruct (to_ndim_requested _ _ _ _ _ H5 Hi R1) as (w & -> & Hw).
    specialize (K4 _ eq_refl). unfold find_center in H14. rewrite K4 in H14. injection H14 as <-. exact Hw. }
  split.
  { intros x R1. destruct (to_ndim_requested _ _ _ _ _ H4 Hi R1) as (w & -> & Hw).
    specialize (K3 _ eq_refl). unfold check_first in H17. rewrite K3 in H17.
    match type of H17 with (if vall ?n ?p then _ else _) = _ => destruct (vall n p) eqn:E; [|discriminate] end.
    rewrite vall_true in E. specialize (E i Hi). apply RN_neqb_true in E. rn.
    rewrite first_from_center. unfold center_of, step_of. cbn [center step at_ shape center_at_index] in *. rn.
    rewrite E, Hw. ring. }
  split.
  { intros f l b R1 R2 R3. destruct (to_ndim_requested _ _ _ _ _ H4 Hi R1) as (w & -> & Hw).
    destruct (to_ndim_requested _ _ _ _ _ H6 Hi R2) as (w2 & -> & Hw2).
    eapply to_ndim_b_requested in R3; [|eassumption|assumption].
    specialize (K3 _ eq_refl). unfold check_last in H16. rewrite K3, K5 in H16.
    match type of H16 with (if vall ?n ?p then _ else _) = _ => destruct (vall n p) eqn:E; [|discriminate] end.
    rewrite vall_true in E. specialize (E i Hi). apply RN_neqb_true in E. rn.
    unfold step_of. cbn [step at_]. rewrite E, Hw, Hw2, R3. destruct b; cbn; ring. }
  cbn [flat origin_at_center center_at_index].
  repeat split; intros b R1; eapply to_ndim_b_requested in R1; eassumption.
Qed.

(* ---------- extent ---------- *)
Lemma ntrunc_exact x : neqb RN x (nofZ RN (ntrunc x)) = true -> IZR (ntrunc (N := RN) x) = x.
Proof. intros H. apply RN_neqb_true in H. rn. auto. Qed.

Theorem construct_extent_shape a g i x :
  construct RN a = Ok g -> (i < ndim RN g)%nat ->
  requested (a_extent RN a) i x -> a_step RN a = None -> extent RN g i = x.
Proof.
  intros H Hi R1 Hs.
  apply construct_inv in H as (vsh&vst&vex&vfi&vce&vla&fl&oac&incl&cai&v&s&st&short&ce&H). cbv zeta in H.
  destruct H as (H1&H2&H3&H4&H5&H6&H7&H8&H9&H10&H11&H12&H13&H14&H15&H16&H17&H18&->).
  cbn [ndim shape] in *.
  rewrite Hs in H2. injection H2 as <-.
  destruct (to_ndim_requested _ _ _ _ _ H3 Hi R1) as (w & -> & Hw).
  unfold extent. cbn [shape step at_]. rn.
  unfold find_shape in H11. cbn [v_shape v_step v_extent v_first v_center v_last py_step] in H11.
  destruct vsh as [vs|].
  - injection H11 as <-. cbn [v_shape v_step v_extent v_first v_center v_last py_step] in *. injection H12 as <-.
    unfold find_step in H13. cbn [v_step v_extent] in H13.
    destruct (vdiv RN _ w _) as [q|] eqn:Eq; [|discriminate]. cbn [bind] in H13.
    unfold vdiv in Eq. match type of Eq with (if ?c then _ else _) = _ => destruct c eqn:E0; [|discriminate] end.
    injection Eq as <-. cbn [at_ tag] in *.
    assert (IZR (round_shape RN vs i) <> 0) as Hnz.
    { apply not_0_IZR. unfold round_shape. lia. }
    match type of H13 with Ok (if ?c then _ else _) = _ => destruct c eqn:E1 end; injection H13 as <- <-; cbn [at_]; rn.
    + rewrite vall_true in E1. specialize (E1 i Hi). apply ntrunc_exact in E1. rewrite E1. rewrite Hw. field. exact Hnz.
    + rewrite Hw. field. exact Hnz.
  - destruct (vdiv RN _ _ w) as [q|] eqn:Eq; [|discriminate]. cbn [bind] in H11.
    injection H11 as <-. cbn [v_shape v_step v_extent v_first v_center v_last py_step] in *. injection H12 as <-.
    unfold find_step in H13. cbn [v_step] in H13. injection H13 as <- <-.
    unfold vdiv in Eq. match type of Eq with (if ?c then _ else _) = _ => destruct c eqn:E0; [|discriminate] end.
    injection Eq as <-. rewrite vall_true in E0. specialize (E0 i Hi). apply negb_true_iff, RN_neqb_false in E0.
    unfold round_shape. cbn [at_].
    assert (nsign (at_ RN w i) * nabs (at_ RN w i) / at_ RN w i = 1) as E1; rn.
    2: rewrite E1, (nceil_IZR 1); cbn; rewrite <- Hw; ring.
    + unfold nsign, nabs. destruct (neqb RN _ _) eqn:E1; [apply RN_neqb_true in E1; contradiction|].
      destruct (nleb RN _ _) eqn:E2; rewrite ?RN_nopp; rn; field; assumption.
Qed.

Theorem construct_extent_step a g i x st :
  construct RN a = Ok g -> (i < ndim RN g)%nat ->
  requested (a_extent RN a) i x -> requested (a_step RN a) i st -> a_shape RN a = None ->
  step_of g i = st /\ Rabs x <= Rabs (extent RN g i) /\
  (x <> 0 -> Rabs (extent RN g i) < Rabs x + Rabs st) /\ (x = 0 -> shape RN g i = 1%Z).
Proof.
  intros H Hi R1 R2 Hs.
  apply construct_inv in H as (vsh&vst&vex&vfi&vce&vla&fl&oac&incl&cai&v&s&stv&short&ce&H). cbv zeta in H.
  destruct H as (H1&H2&H3&H4&H5&H6&H7&H8&H9&H10&H11&H12&H13&H14&H15&H16&H17&H18&->).
  cbn [ndim shape] in *.
  rewrite Hs in H1. injection H1 as <-.
  destruct (to_ndim_requested _ _ _ _ _ H3 Hi R1) as (w & -> & Hw).
  destruct (to_ndim_requested _ _ _ _ _ H2 Hi R2) as (u & -> & Hu).
  unfold extent, step_of. cbn [shape step at_]. rn.
  unfold find_shape in H11. cbn [v_shape v_step v_extent v_first v_center v_last py_step] in H11.
  destruct (vdiv RN _ _ u) as [q|] eqn:Eq; [|discriminate]. cbn [bind] in H11.
  injection H11 as <-. cbn [v_shape v_step v_extent v_first v_center v_last py_step] in *. injection H12 as <-.
  unfold find_step in H13. cbn [v_step] in H13. injection H13 as <- <-.
  unfold vdiv in Eq. match type of Eq with (if ?c then _ else _) = _ => destruct c eqn:E0; [|discriminate] end.
  injection Eq as <-. rewrite vall_true in E0. specialize (E0 i Hi). apply negb_true_iff, RN_neqb_false in E0.
  unfold round_shape. cbn [at_].
  split; [exact Hu|]. rewrite Hw, Hu in *.
  assert (nsign (N := RN) st * nabs (N := RN) x / st = Rabs x / Rabs st) as Eq; rn; [|rewrite Eq; clear Eq].
  { unfold nsign. rewrite RN_nabs. destruct (neqb RN _ _) eqn:E1; [apply RN_neqb_true in E1; contradiction|].
    rn. destruct (nleb RN _ _) eqn:E2.
    - apply RN_nleb_true in E2. rewrite (Rabs_pos_eq st) by exact E2. field. assumption.
    - apply RN_nleb_false in E2. rewrite (Rabs_left st) by exact E2. field. lra. }
  rewrite RN_nceil. rn.
  assert (0 < Rabs st) as Hst by (apply Rabs_pos_lt; assumption).
  assert (0 <= Rabs x / Rabs st) as Hq.
  { apply Rmult_le_pos; [apply Rabs_pos|]. left. apply Rinv_0_lt_compat. assumption. }
  set (c := Z.max 1 (Zceil (Rabs x / Rabs st))).
  assert (Rabs x / Rabs st <= IZR c) as Hc.
  { eapply Rle_trans; [apply Zceil_ub|]. apply IZR_le. unfold c. lia. }
  assert (0 <= IZR c) as Hc0 by (apply IZR_le; unfold c; lia).
  rewrite Rabs_mult, (Rabs_pos_eq (IZR c)) by assumption.
  assert (Rabs x = Rabs x / Rabs st * Rabs st) as Ex by (field; lra).
  split; [rewrite Ex; apply Rmult_le_compat_r; lra|]. split.
  - intros Hx. rewrite Ex at 1.
    assert (IZR c < Rabs x / Rabs st + 1) as Hc1.
    { assert (0 < Rabs x / Rabs st) as Hp.
      { apply Rmult_lt_0_compat; [apply Rabs_pos_lt; assumption|apply Rinv_0_lt_compat; assumption]. }
      assert (1 <= Zceil (Rabs x / Rabs st))%Z.
      { apply (proj2 (Z.le_succ_l 0 _)). apply lt_IZR. eapply Rlt_le_trans; [exact Hp|]. apply Zceil_ub. }
      unfold c. rewrite Z.max_r by lia.
      pose proof (Zceil_lb (Rabs x / Rabs st)). lra. }
    replace (Rabs x / Rabs st * Rabs st + Rabs st) with ((Rabs x / Rabs st + 1) * Rabs st) by ring.
    apply Rmult_lt_compat_r; assumption.
  - intros ->. unfold c. rewrite Rabs_R0. replace (0 / Rabs st) with 0 by (field; lra).
    change 0 with (IZR 0). rewrite Zceil_IZR. reflexivity.
Qed.

(* ---------- regularity ---------- *)
Theorem construct_regular a g :
  construct RN a = Ok g -> a_ndim RN a = None -> short_step RN g = false -> regular g.
Proof.
  intros H Hn Hsh. split; [assumption|]. split.
  2:{ intros i Hi. exact (proj1 (construct_agrees _ _ _ H Hi)). }
  apply construct_inv in H as (vsh&vst&vex&vfi&vce&vla&fl&oac&incl&cai&v&s&st&short&ce&H). cbv zeta in H.
  destruct H as (H1&H2&H3&H4&H5&H6&H7&H8&H9&H10&H11&H12&H13&H14&H15&H16&H17&H18&->).
  cbn [multidimensional ndim] in *. unfold multidimensional_of. intros Hm.
  assert (a_shape RN a = None /\ a_step RN a = None /\ a_extent RN a = None \/
          ~ (a_shape RN a = None /\ a_step RN a = None /\ a_extent RN a = None)) as [(N1&N2&N3)|Hne].
  { destruct (a_shape RN a), (a_step RN a), (a_extent RN a); auto; right; intros (?&?&?); discriminate. }
  - exfalso. rewrite N1 in H1; rewrite N2 in H2; rewrite N3 in H3. injection H1 as <-. injection H2 as <-. injection H3 as <-.
    unfold find_shape in H11. cbn [v_shape v_step v_extent v_first v_center v_last py_step] in H11.
    destruct vla, vfi, vce; crunch; cbn in H18; discriminate.
  - unfold ndim_of. rewrite Hn.
    destruct (a_shape RN a) as [[?|?]|], (a_step RN a) as [[?|?]|], (a_extent RN a) as [[?|?]|],
     (a_first RN a) as [[?|?]|], (a_center RN a) as [[?|?]|], (a_last RN a) as [[?|?]|];
     try discriminate Hm; try reflexivity; exfalso; apply Hne; auto.
Qed.

(* ---------- coordinates ---------- *)
Lemma raw_linear g a j :
  (1 <= shape RN g a)%Z -> (j < points g a)%nat ->
  raw_coordinate RN g a j = first RN g a + INR j * step_of g a.
Proof.
  intros Hs Hj. unfold raw_coordinate, first, step_of, points in *. rn.
  rewrite INR_IZR_INZ.
  destruct (Z.ltb_spec 1 (shape RN g a)) as [H1|H1].
  - rewrite minus_IZR. destruct (negb _ && _)%bool; ring.
  - assert (shape RN g a = 1%Z) as E by lia. rewrite E in *. assert (j = 0%nat) as -> by lia.
    change (1/2)%Z with 0%Z. change (Z.of_nat 0) with 0%Z. cbn [Z.sub Z.add Z.opp Z.even]. rewrite andb_false_r. ring.
Qed.

Lemma ifftshift_length {A} (l : list A) : length (ifftshift l) = length l.
Proof. unfold ifftshift. rewrite app_length, skipn_length, firstn_length. lia. Qed.

Lemma nth_skipn_ {A} k (l : list A) j d : nth j (skipn k l) d = nth (k + j) l d.
Proof. revert l; induction k; intros [|x l]; simpl; auto. destruct j; reflexivity. Qed.
Lemma nth_firstn_ {A} k (l : list A) j d : (j < k)%nat -> nth j (firstn k l) d = nth j l d.
Proof.
  revert l j; induction k; intros [|x l] j H; simpl; auto; try lia.
  destruct j; [reflexivity|]. apply IHk. lia.
Qed.

Lemma ifftshift_nth {A} (l : list A) j d :
  (j < length l)%nat -> nth j (ifftshift l) d = nth ((j + length l / 2) mod length l) l d.
Proof.
  intros Hj. unfold ifftshift. set (n := length l) in *. set (k := Nat.div n 2).
  assert (k < n)%nat as Hk by (apply Nat.div_lt; lia).
  destruct (Nat.lt_ge_cases j (n - k)) as [H|H].
  - rewrite app_nth1 by (rewrite skipn_length; fold n; lia). rewrite nth_skipn_.
    rewrite Nat.mod_small by lia. f_equal. lia.
  - rewrite app_nth2 by (rewrite skipn_length; fold n; lia). rewrite skipn_length. fold n.
    rewrite nth_firstn_ by lia.
    replace (j + k)%nat with ((j - (n - k)) + 1 * n)%nat by lia. rewrite Nat.mod_add by lia.
    rewrite Nat.mod_small by lia. reflexivity.
Qed.

Lemma ifftshift_perm {A} (l : list A) : Permutation (ifftshift l) l.
Proof.
  unfold ifftshift. eapply Permutation_trans; [apply Permutation_app_comm|]. rewrite firstn_skipn. apply Permutation_refl.
Qed.

Lemma axis_range_length g a : length (axis_range RN g a) = points g a.
Proof.
  unfold axis_range, points. destruct (origin_at_center RN g a); rewrite ?ifftshift_length, map_length, seq_length; reflexivity.
Qed.

(** Index into the monotone sequence of the element at position [j]. *)
Definition order (oac : bool) (n j : nat) : nat := if oac then j else Nat.modulo (j + n / 2) n.

Lemma nth_map_seq {A} (f : nat -> A) n j d : (j < n)%nat -> nth j (map f (seq 0 n)) d = f j.
Proof. apply nth_error_nth_map_axes. Qed.

Lemma axis_range_nth g a j :
  (1 <= shape RN g a)%Z -> (j < points g a)%nat ->
  nth j (axis_range RN g a) 0 = first RN g a + INR (order (origin_at_center RN g a) (points g a) j) * step_of g a.
Proof.
  intros Hs Hj. unfold axis_range, order. fold (points g a). destruct (origin_at_center RN g a).
  - rewrite nth_map_seq by assumption. apply raw_linear; assumption.
  - rewrite ifftshift_nth by (rewrite map_length, seq_length; assumption).
    rewrite map_length, seq_length. rewrite nth_map_seq by (apply Nat.mod_upper_bound; lia).
    apply raw_linear; [assumption|]. apply Nat.mod_upper_bound; lia.
Qed.

Lemma norm_index_nat n i : (i < n)%nat -> norm_index (Z.of_nat n) (Z.of_nat i) = Ok i.
Proof.
  intros H. unfold norm_index. replace (_ && _)%bool with true by lia.
  rewrite Z.mod_small by lia. rewrite Nat2Z.id. reflexivity.
Qed.

Lemma fold_getitem g n m :
  multidimensional RN g = false -> (1 <= shape RN g 0)%Z -> (m + n <= points g 0)%nat ->
  fold_right (fun j rest => do x <- getitem_axis RN g (Z.of_nat j); do l <- rest; Ok (x ++ l)) (Ok []) (seq m n)
  = Ok (map (fun j => nth j (axis_range RN g 0) 0) (seq m n)).
Proof.
  intros Hm Hs. revert m. induction n as [|n IH]; intros m Hmn; [reflexivity|].
  cbn [seq fold_right map]. rewrite IH by lia. unfold getitem_axis. rewrite Hm.
  replace (shape RN g 0%nat) with (Z.of_nat (points g 0)) by (unfold points; lia).
  rewrite norm_index_nat by lia. reflexivity.
Qed.

Lemma map_nth_seq {A} (l : list A) d : map (fun j => nth j l d) (seq 0 (length l)) = l.
Proof.
  apply nth_ext with (d := d) (d' := d); [rewrite map_length, seq_length; reflexivity|].
  intros j Hj. rewrite map_length, seq_length in Hj. rewrite nth_map_seq by assumption. reflexivity.
Qed.

Lemma coordinates_range g a :
  regular g -> (a < ndim RN g)%nat -> coordinates g a = Ok (axis_range RN g a).
Proof.
  intros (Hs & Hm & Hsh) Ha. unfold coordinates. destruct (multidimensional RN g) eqn:E.
  - unfold getitem_axis. rewrite E, norm_index_nat, Hs by assumption. reflexivity.
  - specialize (Hm eq_refl). assert (a = 0%nat) as -> by lia.
    rewrite fold_getitem by (auto; apply Hsh; lia).
    rewrite <- (axis_range_length g 0). rewrite (map_nth_seq (axis_range RN g 0) 0). reflexivity.
Qed.

Theorem grid_coordinates g a :
  regular g -> (a < ndim RN g)%nat ->
  exists l mono : list R,
    coordinates g a = Ok l /\ length l = points g a /\ length mono = points g a /\
    (forall j, (j < points g a)%nat -> nth j mono 0 = first RN g a + INR j * step_of g a) /\
    nth (points g a / 2) mono 0 =
      (if (negb (center_at_index RN g a) && Nat.even (points g a))%bool then center_of g a + step_of g a / 2 else center_of g a) /\
    (origin_at_center RN g a = true -> l = mono) /\
    (origin_at_center RN g a = false ->
       Permutation l mono /\
       forall j, (j < points g a)%nat -> nth j l 0 = nth ((j + points g a / 2) mod points g a) mono 0).
Proof.
  intros Hg Ha. pose proof (coordinates_range g a Hg Ha) as Hc. destruct Hg as (Hs & Hm & Hsh). specialize (Hsh a Ha).
  set (mono := map (raw_coordinate RN g a) (seq 0 (points g a)) : list R).
  assert (length mono = points g a) as Hl by (unfold mono; rewrite map_length, seq_length; reflexivity).
  assert (forall j, (j < points g a)%nat -> nth j mono 0 = first RN g a + INR j * step_of g a) as Hnth.
  { intros j Hj. unfold mono. rewrite nth_map_seq by assumption. apply raw_linear; assumption. }
  assert (axis_range RN g a = if origin_at_center RN g a then mono else ifftshift mono) as Er by reflexivity.
  exists (axis_range RN g a), mono.
  split; [assumption|]. split; [apply axis_range_length|]. split; [assumption|]. split; [assumption|].
  assert (0 < points g a)%nat as Hp by (unfold points; lia).
  split.
  { rewrite Hnth by (apply Nat.div_lt; lia). rewrite first_from_center. unfold center_offset.
    assert (IZR (shape RN g a) = IZR (Z.of_nat (points g a))) as Ep by (f_equal; unfold points; lia).
    replace (shape RN g a) with (Z.of_nat (points g a)) by (unfold points; lia).
    rewrite INR_IZR_INZ, Nat2Z.inj_div. change (Z.of_nat 2) with 2%Z.
    destruct (center_at_index RN g a); cbn [negb andb]; rn; [ring|].
    rewrite minus_IZR.
    destruct (Nat.even (points g a)) eqn:E.
    - apply Nat.even_spec in E as [k Hk]. rewrite Hk. replace (Z.of_nat (2*k) / 2)%Z with (Z.of_nat k) by lia.
      replace (Z.of_nat (2*k))%Z with (2 * Z.of_nat k)%Z by lia. rewrite mult_IZR. field.
    - assert (Nat.odd (points g a) = true) as O by (unfold Nat.odd; rewrite E; reflexivity).
      apply Nat.odd_spec in O as [k Hk]. rewrite Hk. replace (Z.of_nat (2*k+1) / 2)%Z with (Z.of_nat k) by lia.
      replace (Z.of_nat (2*k+1))%Z with (2 * Z.of_nat k + 1)%Z by lia. rewrite plus_IZR, mult_IZR. field. }
  split; intros Ho; rewrite Er, Ho; [reflexivity|]. split; [apply ifftshift_perm|].
  intros j Hj. rewrite <- Hl. apply ifftshift_nth. lia.
Qed.
