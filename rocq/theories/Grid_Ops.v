(** Proofs about grid arithmetic, frequency grids, from_ranges, projections and products. *)
From Coq Require Import Reals Lra Lia List Permutation ZifyBool ZifyNat.
From Flocq Require Import Core.Raux.
From Verif Require Import Base Num Grid_Model Grid_Spec Grid_Proofs Grid_Rebuild.
Local Open Scope R_scope.
Ltac Zify.zify_post_hook ::= Z.div_mod_to_equations.

(* ---------- arithmetic (C05) ---------- *)
Lemma operand_to_ndim g o :
  operand_fits g o ->
  exists v, to_ndim RN (ndim RN g) (operand_arg RN o) = Ok v /\
    forall i x, (i < ndim RN g)%nat -> operand_value o i x -> at_ RN v i = x.
Proof.
  intros F.
  assert (forall d l, (length l = 1%nat \/ length l = ndim RN g) ->
    exists v, to_ndim RN (ndim RN g) (AVector RN d l) = Ok v /\
    forall i x, (i < ndim RN g)%nat -> match l with [y] => x = y | _ => nth_error l i = Some x end -> at_ RN v i = x) as K.
  { intros d l [H|H].
    - destruct l as [|y [|? ?]]; try discriminate. eexists. split; [reflexivity|]. intros i x _ ->. reflexivity.
    - destruct (to_ndim_list _ d l H) as (v & E & T & V). exists v. split; [assumption|].
      intros i x Hi Hx. rewrite V by assumption. destruct l as [|y [|y' l]].
      + destruct i; discriminate.
      + simpl in H. assert (i = 0%nat) as -> by lia. symmetry. exact Hx.
      + apply nth_error_nth. exact Hx. }
  destruct o as [d y|d l|d l]; simpl operand_arg.
  - eexists. split; [reflexivity|]. intros i x _ ->. reflexivity.
  - apply K. exact F.
  - apply K. exact F.
Qed.

Lemma operand_has_value g o i : operand_fits g o -> (i < ndim RN g)%nat -> exists x, operand_value o i x.
Proof.
  intros F Hi.
  assert (forall l : list R, (length l = 1%nat \/ length l = ndim RN g) -> exists x, match l with [y] => x = y | _ => nth_error l i = Some x end) as K.
  { intros l H. destruct l as [|y [|y' l]]; [simpl in H; lia|eauto|].
    destruct (nth_error (y :: y' :: l) i) eqn:E; [eauto|]. apply nth_error_None in E. simpl in *. lia. }
  destruct o; simpl in *; eauto; apply K; assumption.
Qed.

Lemma affine_rebuild g d1 st d2 c :
  regular g ->
  exists h, construct RN (with_center RN (with_step RN (dict RN g) (vec_arg RN g d1 st)) (vec_arg RN g d2 c)) = Ok h /\
    regular h /\ same_layout h g /\ forall i, (i < ndim RN g)%nat -> step_of h i = st i /\ center_of h i = c i.
Proof.
  intros Hg.
  destruct (rebuild (ndim RN g) (multidimensional RN g) (vec_arg RN g DInt (fun i => nofZ RN (shape RN g i))) DInt (shape RN g)
     (vec_arg RN g d1 st) d1 st (Some (vec_arg RN g d2 c)) d2 c
     (flag_arg RN g (flat RN g)) (flat RN g) (flag_arg RN g (origin_at_center RN g)) (origin_at_center RN g)
     (flag_arg RN g (center_at_index RN g)) (center_at_index RN g) false) as (h & E & R & N & M & V & T);
    try apply flag_is_arg; try apply arg_is_vec; try assumption; try apply Hg.
  exists h. split; [exact E|]. split; [assumption|]. split.
    - split; [assumption|]. split; [assumption|]. rewrite N. intros i Hi. destruct (V i Hi) as (?&?&?&?&?&?). auto.
    - intros i Hi. destruct (V i Hi) as (?&?&?&?&?&?). auto.
Qed.

(** [h] has the coordinates of [g] mapped by [f i] on axis [i]. *)
Definition coordinatewise (g h : grid RN) (f : nat -> R -> R) : Prop :=
  forall i, (i < ndim RN g)%nat -> exists l, coordinates g i = Ok l /\ coordinates h i = Ok (map (f i) l).

Lemma affine_coordinates g h (m t : nat -> R) :
  regular g -> regular h -> same_layout h g ->
  (forall i, (i < ndim RN g)%nat -> step_of h i = m i * step_of g i /\ center_of h i = m i * center_of g i + t i) ->
  coordinatewise g h (fun i x => m i * x + t i).
Proof.
  intros Hg Hh (N & M & L) V i Hi. exists (axis_range RN g i). split; [apply coordinates_range; assumption|].
  rewrite coordinates_range by (assumption || lia). f_equal. destruct (V i Hi) as (V1 & V2).
  destruct (L i) as (L1 & L2 & L3 & L4); [lia|].
  apply axis_range_shift; auto. apply Hg. assumption.
Qed.

Lemma coordinatewise_ext g h f f' : coordinatewise g h f -> (forall i x, (i < ndim RN g)%nat -> f i x = f' i x) -> coordinatewise g h f'.
Proof.
  intros H E i Hi. destruct (H i Hi) as (l & H1 & H2). exists l. split; [assumption|]. rewrite H2. f_equal.
  apply map_ext. intros. apply E. assumption.
Qed.

Theorem add_ok g o :
  regular g -> operand_fits g o ->
  exists h, add RN g o = Ok h /\ regular h /\ same_layout h g /\
    (forall t : nat -> R, (forall i, (i < ndim RN g)%nat -> operand_value o i (t i)) ->
      coordinatewise g h (fun i x => x + t i) /\
      forall i, (i < ndim RN g)%nat -> step_of h i = step_of g i /\ center_of h i = center_of g i + t i).
Proof.
  intros Hg F. destruct (operand_to_ndim g o F) as (v & E & V). unfold add. rewrite E. cbn [bind]. cbv zeta.
  destruct (affine_rebuild g (tag RN (step RN g)) (at_ RN (step RN g)) (tag RN (vadd RN (center RN g) v)) (at_ RN (vadd RN (center RN g) v)) Hg)
    as (h & Eh & Rh & Lh & Vh).
  assert (step_arg RN g (step RN g) = vec_arg RN g (tag RN (step RN g)) (at_ RN (step RN g))) as Es.
  { unfold step_arg, vec_arg. destruct Hg as (-> & _). reflexivity. }
  exists h. split.
  { rewrite <- Eh. unfold with_center, with_step, dict. cbn [a_shape a_step a_extent a_first a_center a_last a_include_last a_ndim a_flat a_origin_at_center a_center_at_index]. rewrite Es. reflexivity. }
  split; [assumption|]. split; [assumption|]. intros t Ht.
  assert (forall i, (i < ndim RN g)%nat -> step_of h i = step_of g i /\ center_of h i = center_of g i + t i) as K.
  { intros i Hi. destruct (Vh i Hi) as (V1 & V2). split; [exact V1|]. rewrite V2. cbn [vadd at_].
    rewrite (V i (t i)) by auto. reflexivity. }
  split; [|exact K].
  eapply coordinatewise_ext; [apply (affine_coordinates g h (fun _ => 1) t); auto|].
  - intros i Hi. destruct (K i Hi) as (-> & ->). split; ring.
  - intros. cbn. ring.
Qed.

Theorem mul_ok g o :
  regular g -> operand_fits g o ->
  exists h, mul RN g o = Ok h /\ regular h /\ same_layout h g /\
    (forall t : nat -> R, (forall i, (i < ndim RN g)%nat -> operand_value o i (t i)) ->
      coordinatewise g h (fun i x => t i * x) /\
      forall i, (i < ndim RN g)%nat -> step_of h i = t i * step_of g i /\ center_of h i = t i * center_of g i).
Proof.
  intros Hg F. destruct (operand_to_ndim g o F) as (v & E & V). unfold mul. rewrite E. cbn [bind]. cbv zeta.
  destruct (affine_rebuild g (tag RN (vmul RN (step RN g) v)) (at_ RN (vmul RN (step RN g) v))
    (tag RN (vmul RN (center RN g) v)) (at_ RN (vmul RN (center RN g) v)) Hg)
    as (h & Eh & Rh & Lh & Vh).
  exists h. split; [exact Eh|].
  split; [assumption|]. split; [assumption|]. intros t Ht.
  assert (forall i, (i < ndim RN g)%nat -> step_of h i = t i * step_of g i /\ center_of h i = t i * center_of g i) as K.
  { intros i Hi. destruct (Vh i Hi) as (V1 & V2). rewrite V1, V2. cbn [vmul at_].
    rewrite (V i (t i)) by auto. unfold step_of, center_of. rn. split; ring. }
  split; [|exact K].
  eapply coordinatewise_ext; [apply (affine_coordinates g h t (fun _ => 0)); auto|].
  - intros i Hi. destruct (K i Hi) as (-> & ->). split; ring.
  - intros. cbn. ring.
Qed.

Definition map_operand (f : R -> R) (d : dt -> dt) (o : operand RN) : operand RN :=
  match o with
  | OScalar _ e x => OScalar RN (d e) (f x)
  | OArray _ e l => OArray RN (d e) (map f l)
  | OSequence _ e l => OSequence RN (d e) (map f l)
  end.
Lemma map_operand_fits f d g o : operand_fits g o -> operand_fits g (map_operand f d o).
Proof. destruct o; simpl; rewrite ?map_length; auto. Qed.
Lemma map_operand_value f d o i x : operand_value o i x -> operand_value (map_operand f d o) i (f x).
Proof.
  assert (forall l : list R, match l with [y] => x = y | _ => nth_error l i = Some x end ->
     match map f l with [y] => f x = y | _ => nth_error (map f l) i = Some (f x) end) as K.
  { intros l. destruct l as [|y [|y' l]].
    - destruct i; discriminate.
    - intros ->. reflexivity.
    - intros H. apply (map_nth_error f) in H. exact H. }
  destruct o; simpl; [intros ->; reflexivity|apply K|apply K].
Qed.

Theorem sub_ok g o :
  regular g -> operand_fits g o -> is_sequence o = false ->
  exists h, sub RN g o = Ok h /\ regular h /\ same_layout h g /\
    (forall t : nat -> R, (forall i, (i < ndim RN g)%nat -> operand_value o i (t i)) ->
      coordinatewise g h (fun i x => x - t i) /\
      forall i, (i < ndim RN g)%nat -> step_of h i = step_of g i /\ center_of h i = center_of g i - t i).
Proof.
  intros Hg F S.
  assert (sub RN g o = add RN g (map_operand (nopp (N := RN)) (fun d => d) o)) as Es by (destruct o; [reflexivity|reflexivity|discriminate]).
  rewrite Es.
  destruct (add_ok g (map_operand (nopp (N := RN)) (fun d => d) o) Hg) as (h & E & R & L & V); [apply map_operand_fits; assumption|].
  exists h. split; [assumption|]. split; [assumption|]. split; [assumption|]. intros t Ht.
  destruct (V (fun i => - t i)) as (V1 & V2).
  { intros i Hi. rewrite <- (RN_nopp (t i)). apply (map_operand_value (nopp (N := RN))). auto. }
  split.
  - eapply coordinatewise_ext; [exact V1|]. intros; cbn; ring.
  - intros i Hi. destruct (V2 i Hi) as (-> & ->). split; [reflexivity|ring].
Qed.

Theorem sub_sequence g d l : sub RN g (OSequence RN d l) = Err TypeError.
Proof. reflexivity. Qed.
Theorem div_sequence g d l : div RN g (OSequence RN d l) = Err TypeError.
Proof. reflexivity. Qed.

Theorem div_ok g o :
  regular g -> operand_fits g o -> is_sequence o = false ->
  (forall i x, operand_value o i x -> x <> 0) ->
  exists h, div RN g o = Ok h /\ regular h /\ same_layout h g /\
    (forall t : nat -> R, (forall i, (i < ndim RN g)%nat -> operand_value o i (t i)) ->
      coordinatewise g h (fun i x => x / t i) /\
      forall i, (i < ndim RN g)%nat -> step_of h i = step_of g i / t i /\ center_of h i = center_of g i / t i).
Proof.
  intros Hg F S Hnz.
  assert (div RN g o = mul RN g (map_operand (fun x => 1 / x) (fun _ => DFlt) o)) as Es.
  { destruct o as [d x|d l|d l]; [| |discriminate]; unfold div.
    - destruct (neqb RN x (nofZ RN 0)) eqn:E; [|reflexivity]. apply RN_neqb_true in E. exfalso. apply (Hnz 0%nat x); [reflexivity|exact E].
    - destruct (existsb _ l) eqn:E; [|reflexivity]. exfalso. apply existsb_exists in E as (x & Hx & Ex).
      apply RN_neqb_true in Ex. apply In_nth_error in Hx as (i & Hi).
      apply (Hnz i x); [|exact Ex]. cbn. destruct l as [|y [|y' l]]; auto.
      destruct i as [|[|i]]; try discriminate. injection Hi as ->. reflexivity. }
  rewrite Es.
  destruct (mul_ok g (map_operand (fun x => 1 / x) (fun _ => DFlt) o) Hg) as (h & E & R & L & V); [apply map_operand_fits; assumption|].
  exists h. split; [assumption|]. split; [assumption|]. split; [assumption|]. intros t Ht.
  destruct (V (fun i => 1 / t i)) as (V1 & V2).
  { intros i Hi. apply (map_operand_value (fun x => 1 / x)). auto. }
  split.
  - eapply coordinatewise_ext; [exact V1|]. intros; cbn. unfold Rdiv. ring.
  - intros i Hi. destruct (V2 i Hi) as (-> & ->). split; unfold Rdiv; ring.
Qed.

Theorem neg_ok g :
  regular g ->
  exists h, neg RN g = Ok h /\ regular h /\ same_layout h g /\ coordinatewise g h (fun _ x => - x) /\
      forall i, (i < ndim RN g)%nat -> step_of h i = - step_of g i /\ center_of h i = - center_of g i.
Proof.
  intros Hg. destruct (mul_ok g (OScalar RN DInt (nofZ RN (-1))) Hg I) as (h & E & R & L & V).
  exists h. split; [exact E|]. split; [assumption|]. split; [assumption|].
  destruct (V (fun _ => -1)) as (V1 & V2); [intros; reflexivity|]. split.
  - eapply coordinatewise_ext; [exact V1|]. intros; cbn. ring.
  - intros i Hi. destruct (V2 i Hi) as (-> & ->). split; ring.
Qed.

(** Round trips. *)
Lemma same_layout_trans a b c : same_layout a b -> same_layout b c -> same_layout a c.
Proof.
  intros (N1 & M1 & L1) (N2 & M2 & L2). split; [congruence|]. split; [congruence|].
  intros i Hi. destruct (L1 i Hi) as (?&?&?&?). destruct (L2 i) as (?&?&?&?); [lia|]. repeat split; congruence.
Qed.
Lemma layout_same g h : same_layout h g -> (forall i, (i < ndim RN g)%nat -> step_of h i = step_of g i /\ center_of h i = center_of g i) -> same_grid h g.
Proof.
  intros (N & M & L) V. split; [assumption|]. split; [assumption|]. intros i Hi.
  destruct (L i Hi) as (?&?&?&?). rewrite N in Hi. destruct (V i Hi). unfold same_axis. auto 10.
Qed.
Lemma fits_same g h o : ndim RN h = ndim RN g -> operand_fits g o -> operand_fits h o.
Proof. intros N. destruct o; simpl; rewrite ?N; auto. Qed.

Lemma operand_values g o : operand_fits g o -> exists t : nat -> R, forall i, (i < ndim RN g)%nat -> operand_value o i (t i).
Proof.
  intros F. destruct o as [d x|d l|d l]; simpl in *.
  - exists (fun _ => x). reflexivity.
  - destruct l as [|y [|y' l]]; [exists (fun _ => 0)|exists (fun _ => y)|exists (fun i => nth i (y :: y' :: l) 0)]; intros i Hi; simpl in F; try lia; auto.
    apply nth_error_nth'. simpl. lia.
  - destruct l as [|y [|y' l]]; [exists (fun _ => 0)|exists (fun _ => y)|exists (fun i => nth i (y :: y' :: l) 0)]; intros i Hi; simpl in F; try lia; auto.
    apply nth_error_nth'. simpl. lia.
Qed.

Theorem add_sub_roundtrip g o :
  regular g -> operand_fits g o -> is_sequence o = false ->
  exists h k, add RN g o = Ok h /\ sub RN h o = Ok k /\ same_grid k g.
Proof.
  intros Hg F S. destruct (add_ok g o Hg F) as (h & E & R & L & V). destruct (operand_values g o F) as (t & Ht).
  destruct (sub_ok h o R) as (k & E' & R' & L' & V'); [apply (fits_same g); [apply L|assumption]|assumption|].
  exists h, k. split; [assumption|]. split; [assumption|]. apply layout_same; [eapply same_layout_trans; eassumption|].
  intros i Hi. destruct (V t Ht) as (_ & K). destruct (K i Hi) as (K1 & K2).
  destruct (V' t) as (_ & K'). { intros j Hj. apply Ht. destruct L as (N & _). lia. }
  destruct (K' i) as (K1' & K2'); [destruct L; lia|]. rewrite K1', K2', K1, K2. split; ring.
Qed.

Theorem mul_div_roundtrip g o :
  regular g -> operand_fits g o -> is_sequence o = false -> (forall i x, operand_value o i x -> x <> 0) ->
  exists h k, mul RN g o = Ok h /\ div RN h o = Ok k /\ same_grid k g.
Proof.
  intros Hg F S Hnz. destruct (mul_ok g o Hg F) as (h & E & R & L & V). destruct (operand_values g o F) as (t & Ht).
  destruct (div_ok h o R) as (k & E' & R' & L' & V'); [apply (fits_same g); [apply L|assumption]|assumption|assumption|].
  exists h, k. split; [assumption|]. split; [assumption|]. apply layout_same; [eapply same_layout_trans; eassumption|].
  intros i Hi. destruct (V t Ht) as (_ & K). destruct (K i Hi) as (K1 & K2).
  destruct (V' t) as (_ & K'). { intros j Hj. apply Ht. destruct L as (N & _). lia. }
  destruct (K' i) as (K1' & K2'); [destruct L; lia|]. rewrite K1', K2', K1, K2.
  assert (t i <> 0) by (apply (Hnz i); auto). split; field; assumption.
Qed.

(* ---------- frequency grids (C04) ---------- *)
Definition signed (n j : nat) : Z := if Nat.ltb (2 * j) n then Z.of_nat j else (Z.of_nat j - Z.of_nat n)%Z.

Lemma order_signed n j : (j < n)%nat -> (Z.of_nat (order false n j) - Z.of_nat (n / 2))%Z = signed n j.
Proof.
  intros H. unfold order, signed. destruct (Nat.ltb_spec (2 * j) n) as [L|L].
  - rewrite Nat.mod_small; [lia|]. assert (n / 2 * 2 <= n)%nat by lia. lia.
  - assert ((j + n / 2) mod n = j + n / 2 - n)%nat as ->.
    { replace (j + n / 2)%nat with ((j + n/2 - n) + 1 * n)%nat at 1 by lia. rewrite Nat.mod_add by lia. apply Nat.mod_small. lia. }
    lia.
Qed.

Theorem f_ok g :
  regular g -> (forall i, (i < ndim RN g)%nat -> step_of g i <> 0) ->
  exists f, f_grid RN g = Ok f /\ regular f /\ ndim RN f = ndim RN g /\ multidimensional RN f = multidimensional RN g /\
    forall i, (i < ndim RN g)%nat ->
      shape RN f i = shape RN g i /\ flat RN f i = flat RN g i /\ step_of f i = 1 / (IZR (shape RN g i) * step_of g i) /\
      origin_at_center RN f i = false /\ center_at_index RN f i = true /\ center_of f i = 0 /\
      exists l, coordinates f i = Ok l /\ length l = points g i /\
        forall j, (j < points g i)%nat -> nth j l 0 = IZR (signed (points g i) j) / extent RN g i.
Proof.
  intros Hg Hst. unfold f_grid.
  assert (forall i, (i < ndim RN g)%nat -> extent RN g i <> 0) as Hext.
  { intros i Hi. unfold extent. rn. apply Rmult_integral_contrapositive. split; [|apply Hst; assumption].
    apply not_0_IZR. destruct Hg as (_ & _ & Hs). specialize (Hs i Hi). lia. }
  assert (vdiv RN (if multidimensional RN g then ndim RN g else 1) (vconst RN DInt (nofZ RN 1)) {| tag := DFlt; at_ := extent RN g |}
     = Ok (Build_vec RN DFlt (fun i => 1 / extent RN g i))) as ->.
  { unfold vdiv. replace (vall _ _) with true; [reflexivity|]. symmetry. apply vall_true. intros i Hi.
    apply negb_true_iff, RN_neqb_false. apply Hext. destruct (multidimensional RN g) eqn:E; [assumption|].
    destruct Hg as (_ & Hm & _). rewrite (Hm E). assumption. }
  cbn [bind tag at_].
  destruct (rebuild (ndim RN g) (multidimensional RN g) (vec_arg RN g DInt (fun i => nofZ RN (shape RN g i))) DInt (shape RN g)
     (vec_arg RN g DFlt (fun i => 1 / extent RN g i)) DFlt (fun i => 1 / extent RN g i) None DInt (fun _ => 0)
     (flag_arg RN g (flat RN g)) (flat RN g) (BScalar false) (fun _ => false)
     (BScalar true) (fun _ => true) false) as (h & E & R & N & M & V & T);
    try apply flag_is_arg; try apply arg_is_vec; try apply flag_is_scalar; try assumption; try apply Hg; auto.
  exists h. split; [exact E|]. repeat (split; [assumption|]). intros i Hi. destruct (V i Hi) as (V1&V2&V3&V4&V5&V6).
    repeat (split; [assumption|]).
    exists (axis_range RN h i). split; [apply coordinates_range; (assumption || lia)|].
    assert (points h i = points g i) as Ep by (unfold points; rewrite V1; reflexivity).
    split; [rewrite axis_range_length; assumption|]. intros j Hj.
    rewrite axis_range_nth by (try rewrite Ep; auto; apply R; lia).
    rewrite first_from_center, V2, V3, V5, V6, V1, Ep. unfold center_offset. rewrite <- order_signed by assumption.
    rewrite minus_IZR, INR_IZR_INZ.
    replace (shape RN g i / 2)%Z with (Z.of_nat (points g i / 2)) by (destruct Hg as (_&_&Hs); specialize (Hs i Hi); unfold points; lia).
    rn. field. apply Hext. assumption.
Qed.

(** [g.f.f] has the shape and the step of [g]. *)
Theorem f_f_ok g :
  regular g -> (forall i, (i < ndim RN g)%nat -> step_of g i <> 0) ->
  exists f ff, f_grid RN g = Ok f /\ f_grid RN f = Ok ff /\ ndim RN ff = ndim RN g /\
    forall i, (i < ndim RN g)%nat -> shape RN ff i = shape RN g i /\ step_of ff i = step_of g i.
Proof.
  intros Hg Hst. destruct (f_ok g Hg Hst) as (f & E & R & N & M & V).
  assert (forall i, (i < ndim RN g)%nat -> IZR (shape RN g i) <> 0) as Hs.
  { intros i Hi. apply not_0_IZR. destruct Hg as (_ & _ & Hs). specialize (Hs i Hi). lia. }
  destruct (f_ok f R) as (ff & E' & R' & N' & M' & V').
  - intros i Hi. rewrite N in Hi. destruct (V i Hi) as (_ & _ & -> & _). specialize (Hs i Hi). specialize (Hst i Hi).
    unfold Rdiv. rewrite Rmult_1_l. apply Rinv_neq_0_compat, Rmult_integral_contrapositive. auto.
  - exists f, ff. split; [assumption|]. split; [assumption|]. split; [congruence|]. intros i Hi.
    destruct (V i Hi) as (V1 & _ & V3 & _). rewrite <- N in Hi. destruct (V' i Hi) as (V1' & _ & V3' & _). rewrite N in Hi.
    split; [congruence|]. rewrite V3', V1, V3. specialize (Hs i Hi). specialize (Hst i Hi). field. auto.
Qed.

Theorem k_ok g :
  regular g -> (forall i, (i < ndim RN g)%nat -> step_of g i <> 0) ->
  exists f k, f_grid RN g = Ok f /\ k_grid RN PI g = Ok k /\ regular k /\ same_layout k f /\
    coordinatewise f k (fun _ x => 2 * PI * x).
Proof.
  intros Hg Hst. destruct (f_ok g Hg Hst) as (f & E & R & N & M & V).
  destruct (mul_ok f (OScalar RN DFlt (2 * PI)) R I) as (k & E' & R' & L' & V').
  exists f, k. split; [assumption|]. split; [unfold k_grid; rewrite E; exact E'|]. split; [assumption|]. split; [assumption|].
  apply (proj1 (V' (fun _ => 2 * PI) (fun _ _ => eq_refl))).
Qed.

Lemma signed_spec n j : (j < n)%nat ->
  ((signed n j) mod Z.of_nat n = Z.of_nat j /\ - Z.of_nat n <= 2 * signed n j < Z.of_nat n)%Z.
Proof.
  intros H. unfold signed. destruct (Nat.ltb_spec (2 * j) n).
  - split; [apply Z.mod_small; lia|lia].
  - split; [|lia]. replace (Z.of_nat j - Z.of_nat n)%Z with (Z.of_nat j + (-1) * Z.of_nat n)%Z by lia.
    rewrite Z.mod_add by lia. apply Z.mod_small. lia.
Qed.

Lemma cos_period_Z x (z : Z) : cos (x + IZR z * (2 * PI)) = cos x.
Proof.
  destruct (Z_le_gt_dec 0 z).
  - replace (IZR z * (2 * PI)) with (2 * INR (Z.to_nat z) * PI) by (rewrite INR_IZR_INZ, Z2Nat.id by lia; ring). apply cos_period.
  - rewrite <- (cos_period (x + IZR z * (2*PI)) (Z.to_nat (-z))). f_equal. rewrite INR_IZR_INZ, Z2Nat.id by lia.
    rewrite opp_IZR. ring.
Qed.
Lemma sin_period_Z x (z : Z) : sin (x + IZR z * (2 * PI)) = sin x.
Proof.
  destruct (Z_le_gt_dec 0 z).
  - replace (IZR z * (2 * PI)) with (2 * INR (Z.to_nat z) * PI) by (rewrite INR_IZR_INZ, Z2Nat.id by lia; ring). apply sin_period.
  - rewrite <- (sin_period (x + IZR z * (2*PI)) (Z.to_nat (-z))). f_equal. rewrite INR_IZR_INZ, Z2Nat.id by lia.
    rewrite opp_IZR. ring.
Qed.

(** Statement in terms of the grids only: every wave number is periodic over the extent. *)
Theorem k_periodic g i j x :
  regular g -> (forall i, (i < ndim RN g)%nat -> step_of g i <> 0) -> (i < ndim RN g)%nat -> (j < points g i)%nat ->
  exists k l, k_grid RN PI g = Ok k /\ coordinates k i = Ok l /\ length l = points g i /\
    cos (nth j l 0 * (x + extent RN g i)) = cos (nth j l 0 * x) /\
    sin (nth j l 0 * (x + extent RN g i)) = sin (nth j l 0 * x).
Proof.
  intros Hg Hst Hi Hj. destruct (f_ok g Hg Hst) as (f & E & R & N & M & V).
  destruct (k_ok g Hg Hst) as (f' & k & E' & Ek & Rk & Lk & Ck). rewrite E in E'. injection E' as <-.
  destruct (V i Hi) as (_&_&_&_&_&_&l&El&Ll&Vl).
  destruct (Ck i) as (l' & E1 & E2); [lia|]. rewrite El in E1. injection E1 as <-.
  exists k, (map (fun x => 2 * PI * x) l). split; [assumption|]. split; [assumption|]. split; [rewrite map_length; assumption|].
  rewrite nth_indep with (d' := 2 * PI * 0) by (rewrite map_length; lia).
  rewrite (map_nth (fun x => 2 * PI * x)). rewrite Vl by assumption.
  assert (extent RN g i <> 0) as Hext.
  { unfold extent. rn. apply Rmult_integral_contrapositive. split; [|apply Hst; assumption].
    apply not_0_IZR. destruct Hg as (_ & _ & Hs). specialize (Hs i Hi). lia. }
  set (s := signed (points g i) j). set (L := extent RN g i) in *.
  replace (2 * PI * (IZR s / L) * (x + L)) with (2 * PI * (IZR s / L) * x + IZR s * (2 * PI)) by (field; assumption).
  rewrite cos_period_Z, sin_period_Z. split; reflexivity.
Qed.

(* ---------- from_ranges (C03) ---------- *)
Lemma uniform_length x0 s n : length (uniform x0 s n) = n.
Proof. unfold uniform. rewrite map_length, seq_length. reflexivity. Qed.
Lemma uniform_nth x0 s n j : (j < n)%nat -> nth j (uniform x0 s n) 0 = x0 + INR j * s.
Proof. intros H. unfold uniform. rewrite nth_map_seq by assumption. reflexivity. Qed.

Section Ranges.
  Let first (r : list R) := nth 0 r 0.
  Let before (r : list R) := nth ((length r - 1) / 2) r 0.
  Let after (r : list R) := nth (if Nat.ltb (length r) 2 then 0 else length r - length r / 2)%nat r 0.
  Let last (r : list R) := nth (length r - 1) r 0.
  Let oac (r : list R) := nleb RN (nabs (N := RN) (before r - after r)) (nabs (N := RN) (last r - first r)).
  Let stp (r : list R) :=
    (bnum RN (oac r) * (last r - first r) + bnum RN (negb (oac r)) * (before r - after r))
    / IZR (Z.of_nat (length r) - 1 + (if Nat.leb (length r) 1 then 1 else 0)).
  Let ctr (r : list R) :=
    bnum RN (oac r) * (bnum RN (Nat.odd (length r)) * before r + bnum RN (negb (Nat.odd (length r))) * after r)
    + bnum RN (negb (oac r)) * first r.

  (** The parameters that from_ranges extracts describe the range it was given. *)
  Lemma range_parameters r :
    is_range r ->
    forall j, (j < length r)%nat ->
      nth j r 0 = ctr r - INR (length r / 2) * stp r + INR (order (oac r) (length r) j) * stp r.
  Proof.
    intros (x0 & s & n & Hn & H) j Hj.
    assert (length r = n) as Hl by (destruct H as [-> | [H _]]; [apply uniform_length|exact H]).
    assert (forall k, (k < n)%nat -> exists m, (m < n)%nat /\ nth k r 0 = x0 + INR m * s /\
              (r = uniform x0 s n /\ m = k \/ m = Nat.modulo (k + n/2) n)) as Hv.
    { intros k Hk. destruct H as [E | [_ H]].
      - exists k. rewrite E, uniform_nth by assumption. auto.
      - exists (Nat.modulo (k + n/2) n). assert ((k + n / 2) mod n < n)%nat by (apply Nat.mod_upper_bound; lia).
        rewrite H, uniform_nth by assumption. auto. }
    destruct (Nat.eq_dec n 1) as [-> | Hn1].
    { assert (j = 0%nat) as -> by lia.
      assert (before r = nth 0 r 0) as F1 by (unfold before; rewrite Hl; reflexivity).
      assert (after r = nth 0 r 0) as F2 by (unfold after; rewrite Hl; reflexivity).
      assert (last r = nth 0 r 0) as F3 by (unfold last; rewrite Hl; reflexivity).
      assert (first r = nth 0 r 0) as F4 by reflexivity.
      unfold ctr, stp. rewrite F1, F2, F3, F4, Hl.
      replace (order (oac r) 1 0) with 0%nat by (destruct (oac r); reflexivity).
      unfold bnum. destruct (oac r); cbn; field. }
    assert (Nat.leb n 1 = false) as Hn2 by lia. assert (Nat.ltb n 2 = false) as Hn3 by lia.
    assert (IZR (Z.of_nat n - 1 + 0) = INR n - 1) as Ez by (rewrite Z.add_0_r, minus_IZR, <- INR_IZR_INZ; reflexivity).
    assert (1 <= INR n - 1) as Hq.
    { replace 1 with (INR 2 - 1) at 1 by (cbn; ring). apply Rplus_le_compat_r, le_INR. lia. }
    assert (forall a b, nabs (N := RN) (a - b) = Rabs (a - b)) as Habs by (intros; apply RN_nabs).
    destruct H as [E | [_ H]].
    - (* monotone *)
      assert (first r = x0) as F1 by (unfold first; rewrite E, uniform_nth by lia; cbn; ring).
      assert (last r = x0 + (INR n - 1) * s) as F2
        by (unfold last; rewrite Hl, E, uniform_nth, minus_INR by lia; cbn [INR]; ring).
      assert (before r - after r = - s) as F3.
      { unfold before, after. rewrite Hl, Hn3, E, !uniform_nth by lia.
        replace (n - n / 2)%nat with ((n - 1) / 2 + 1)%nat by lia. rewrite plus_INR. cbn [INR]. ring. }
      assert (oac r = true) as Ho.
      { unfold oac. apply RN_nleb_true. rewrite !Habs, F1, F2, F3, Rabs_Ropp.
        replace (x0 + (INR n - 1) * s - x0) with ((INR n - 1) * s) by ring. rewrite Rabs_mult, (Rabs_pos_eq (INR n - 1)) by lra.
        pose proof (Rabs_pos s). nra. }
      assert (stp r = s) as F4.
      { unfold stp. rewrite Ho, Hl, Hn2, Ez, F1, F2. cbn [negb bnum]. unfold bnum. rn. field. lra. }
      assert (ctr r = x0 + INR (n / 2) * s) as F5.
      { unfold ctr. rewrite Ho, Hl. unfold bnum. rn. cbn [negb]. unfold before, after. rewrite Hl, Hn3, E, !uniform_nth by lia.
        destruct (Nat.odd n) eqn:Eo; cbn [negb].
        - apply Nat.odd_spec in Eo as [m Hm]. replace ((n - 1) / 2)%nat with (n / 2)%nat by lia. ring.
        - assert (Nat.even n = true) as Ee by (rewrite <- Nat.negb_odd, Eo; reflexivity).
          apply Nat.even_spec in Ee as [m Hm]. replace (n - n / 2)%nat with (n / 2)%nat by lia. ring. }
      rewrite F4, F5, Ho, Hl. unfold order. rewrite E, uniform_nth by lia. ring.
    - (* ifftshifted *)
      assert (first r = x0 + INR (n / 2) * s) as F1.
      { unfold first. rewrite H, uniform_nth by (try apply Nat.mod_upper_bound; lia).
        rewrite Nat.mod_small by (cbn [Nat.add]; apply Nat.div_lt; lia). cbn [Nat.add]. reflexivity. }
      assert (last r = x0 + (INR (n / 2) - 1) * s) as F2.
      { unfold last. rewrite Hl, H, uniform_nth by (try apply Nat.mod_upper_bound; lia).
        replace (n - 1 + n / 2)%nat with ((n / 2 - 1) + 1 * n)%nat by lia. rewrite Nat.mod_add by lia.
        rewrite Nat.mod_small by lia. rewrite minus_INR by lia. cbn [INR]. ring. }
      assert (before r = x0 + (INR n - 1) * s) as F3.
      { unfold before. rewrite Hl, H, uniform_nth by (try apply Nat.mod_upper_bound; lia).
        replace ((n - 1) / 2 + n / 2)%nat with (n - 1)%nat by lia. rewrite Nat.mod_small by lia. rewrite minus_INR by lia. cbn [INR]. ring. }
      assert (after r = x0) as F6.
      { unfold after. rewrite Hl, Hn3, H, uniform_nth by (try apply Nat.mod_upper_bound; lia).
        replace (n - n / 2 + n / 2)%nat with (0 + 1 * n)%nat by lia. rewrite Nat.mod_add by lia.
        rewrite Nat.mod_small by lia. cbn [INR]. ring. }
      assert (nth j r 0 = x0 + INR ((j + n / 2) mod n) * s) as F7.
      { rewrite H, uniform_nth by (try apply Nat.mod_upper_bound; lia). reflexivity. }
      destruct (Req_dec s 0) as [-> | Hs].
      + assert (stp r = 0) as F4.
        { unfold stp. rewrite Hl, Hn2, Ez, F1, F2, F3, F6. unfold bnum. rn. field. lra. }
        assert (ctr r = x0) as F5.
        { unfold ctr. rewrite F1, F3, F6. unfold bnum. destruct (oac r), (Nat.odd (length r)); rn; cbn [negb]; ring. }
        rewrite F4, F5, F7. ring.
      + destruct (Nat.eq_dec n 2) as [-> | Hn4].
        * cbn [INR] in *. change (2 / 2)%nat with 1%nat in *. cbn [INR] in *.
          assert (oac r = true) as Ho.
          { unfold oac. apply RN_nleb_true. rewrite !Habs, F1, F2, F3, F6.
            replace (x0 + (1 - 1) * s - (x0 + 1 * s)) with (- s) by ring. rewrite Rabs_Ropp. right. f_equal. ring. }
          assert (stp r = - s) as F4.
          { unfold stp. rewrite Ho, Hl, Hn2, Ez, F1, F2. unfold bnum. rn. cbn [negb]. field. }
          assert (ctr r = x0) as F5.
          { unfold ctr. rewrite Ho, Hl, F6. unfold bnum. rn. cbn [negb Nat.odd Nat.even]. ring. }
          rewrite F4, F5, F7, Ho, Hl. change (2 / 2)%nat with 1%nat. unfold order.
          assert (j = 0 \/ j = 1)%nat as [-> | ->] by lia; cbn; ring.
        * assert (2 <= INR n - 1) as Hq2.
          { replace 2 with (INR 3 - 1) by (cbn; ring). apply Rplus_le_compat_r, le_INR. lia. }
          assert (oac r = false) as Ho.
          { unfold oac. apply RN_nleb_false. rewrite !Habs, F1, F2, F3, F6.
            replace (x0 + (INR (n/2) - 1) * s - (x0 + INR (n/2) * s)) with (- s) by ring. rewrite Rabs_Ropp.
            replace (x0 + (INR n - 1) * s - x0) with ((INR n - 1) * s) by ring. rewrite Rabs_mult, (Rabs_pos_eq (INR n - 1)) by lra.
            pose proof (Rabs_pos_lt s Hs). nra. }
          assert (stp r = s) as F4.
          { unfold stp. rewrite Ho, Hl, Hn2, Ez, F3, F6. unfold bnum. rn. cbn [negb]. field. lra. }
          assert (ctr r = x0 + INR (n / 2) * s) as F5.
          { unfold ctr. rewrite Ho, F1. unfold bnum. rn. cbn [negb]. ring. }
          rewrite F4, F5, F7, Ho, Hl. unfold order. ring.
  Qed.

  Theorem from_ranges_ok d (ranges : list (list R)) :
    (forall r, In r ranges -> is_range r) ->
    exists g, from_ranges RN d ranges = Ok g /\ regular g /\ ndim RN g = length ranges /\ multidimensional RN g = true /\ forall i, (i < length ranges)%nat -> coordinates g i = Ok (nth i ranges []).
  Proof.
    intros Hr. unfold from_ranges.
    assert (forall r, In r ranges -> (1 <= length r)%nat) as Hlen.
    { intros r H. destruct (Hr r H) as (x0 & s & n & Hn & [-> | [E _]]); [rewrite uniform_length|]; lia. }
    assert (existsb (fun r : list RN => Nat.eqb (length r) 0) ranges = false) as ->.
    { destruct (existsb _ _) eqn:E; [|reflexivity]. exfalso. apply existsb_exists in E as (r & H & E).
      apply Hlen in H. apply Nat.eqb_eq in E. change (carrier RN) with R in *. lia. }
    cbv zeta.
    destruct (rebuild (length ranges) true
      (AVector RN DInt (map (fun r : list R => IZR (Z.of_nat (length r))) ranges)) DInt (fun i => Z.of_nat (length (nth i ranges [])))
      (AVector RN DFlt (map stp ranges)) DFlt (fun i => stp (nth i ranges []))
      (Some (AVector RN d (map ctr ranges))) d (fun i => ctr (nth i ranges []))
      (BScalar false) (fun _ => false) (BVector (map oac ranges)) (fun i => oac (nth i ranges []))
      (BScalar true) (fun _ => true) false) as (h & E & R & N & M & V & T);
      try apply flag_is_scalar; try discriminate.
    - apply (arg_is_map DInt (fun r : list R => IZR (Z.of_nat (length r))) ranges (length ranges) [] eq_refl).
    - intros i Hi. apply nth_In with (d := []) in Hi. apply Hlen in Hi. lia.
    - apply (arg_is_map DFlt stp ranges (length ranges) [] eq_refl).
    - apply (arg_is_map d ctr ranges (length ranges) [] eq_refl).
    - apply (flag_is_list oac ranges (length ranges) [] eq_refl).
    - exists h. split; [exact E|]. repeat (split; [assumption|]). intros i Hi.
      rewrite coordinates_range by (assumption || lia). f_equal. destruct (V i Hi) as (V1&V2&V3&V4&V5&V6).
      set (r := nth i ranges []) in *.
      assert (In r ranges) as Hin by (apply nth_In; assumption).
      assert (points h i = length r) as Ep by (unfold points; rewrite V1; lia).
      apply nth_ext with (d := 0) (d' := 0); [rewrite axis_range_length; exact Ep|].
      intros j Hj. rewrite axis_range_length in Hj.
      rewrite axis_range_nth by (auto; apply R; lia). rewrite first_from_center, V1, V2, V3, V5, V6, Ep.
      etransitivity; [|symmetry; apply (range_parameters r (Hr r Hin) j); lia]. unfold center_offset.
      replace (Z.of_nat (length r) / 2)%Z with (Z.of_nat (length r / 2)) by lia. rn. rewrite <- INR_IZR_INZ. reflexivity.
  Qed.

  Theorem from_ranges_empty d ranges : In [] ranges -> from_ranges RN d ranges = Err AttributeError.
  Proof.
    intros H. unfold from_ranges. replace (existsb _ _) with true; [reflexivity|]. symmetry. apply existsb_exists.
    exists []. split; [assumption|reflexivity].
  Qed.
End Ranges.

(* ---------- projections and products (C06) ---------- *)
Lemma same_axis_coordinates g i h j :
  regular g -> regular h -> (i < ndim RN g)%nat -> (j < ndim RN h)%nat -> same_axis h j g i -> coordinates h j = coordinates g i.
Proof.
  intros Hg Hh Hi Hj (A1&A2&A3&A4&A5&A6). rewrite !coordinates_range by assumption. f_equal.
  apply axis_range_same; auto. apply Hg. assumption.
Qed.

Definition resolve (n : nat) (a : Z) : nat := Z.to_nat (a mod Z.of_nat n).

Theorem project_ok g keep remove :
  regular g -> (forall a, In a keep -> (- Z.of_nat (ndim RN g) <= a < Z.of_nat (ndim RN g))%Z) ->
  exists h, project RN g keep remove = Ok h /\ regular h /\ multidimensional RN h = true /\ let kept := filter (fun a => negb (existsb (Nat.eqb a) (map (resolve (ndim RN g)) remove))) (map (resolve (ndim RN g)) keep) in
    ndim RN h = length kept /\ forall i, (i < length kept)%nat ->
      (nth i kept 0 < ndim RN g)%nat /\ same_axis h i g (nth i kept 0%nat) /\ coordinates h i = coordinates g (nth i kept 0%nat).
Proof.
  intros Hg Hk. unfold project.
  assert (existsb (fun a => (Z.of_nat (ndim RN g) <=? a)%Z || (a <? - Z.of_nat (ndim RN g))%Z) keep = false)%bool as ->.
  { destruct (existsb _ _) eqn:E; [|reflexivity]. exfalso. apply existsb_exists in E as (a & Ha & E). apply Hk in Ha. lia. }
  fold (resolve (ndim RN g)). change (fun a => Z.to_nat (a mod Z.of_nat (ndim RN g))) with (resolve (ndim RN g)).
  set (kept := filter _ (map (resolve (ndim RN g)) keep)).
  assert (forall i, (i < length kept)%nat -> (nth i kept 0 < ndim RN g)%nat) as Hb.
  { intros i Hi. apply nth_In with (d := 0%nat) in Hi. revert Hi. generalize (nth i kept 0%nat). intros b Hi. apply filter_In in Hi as (Hi & _).
    apply in_map_iff in Hi as (a & <- & Ha). apply Hk in Ha. unfold resolve. lia. }
  replace (short_step RN g && existsb (Nat.ltb 0) kept)%bool with false by (destruct Hg as (-> & _); reflexivity).
  assert (exists h, match kept with
    | [] => construct RN {| a_shape := Some (AVector RN DFlt []); a_step := None; a_extent := None; a_first := None;
                           a_center := None; a_last := None; a_include_last := BScalar false; a_ndim := None;
                           a_flat := BScalar false; a_origin_at_center := BScalar true; a_center_at_index := BScalar true |}
    | _ => construct RN {| a_shape := Some (AVector RN DInt (map (fun i => nofZ RN (shape RN g i)) kept));
                       a_step := Some (AVector RN (tag RN (step RN g)) (map (at_ RN (step RN g)) kept));
                       a_extent := None; a_first := None;
                       a_center := Some (AVector RN (tag RN (center RN g)) (map (at_ RN (center RN g)) kept));
                       a_last := None; a_include_last := BScalar false; a_ndim := None;
                       a_flat := BVector (map (flat RN g) kept);
                       a_origin_at_center := BVector (map (origin_at_center RN g) kept);
                       a_center_at_index := BVector (map (center_at_index RN g) kept) |}
    end = Ok h /\ regular h /\ multidimensional RN h = true /\ ndim RN h = length kept /\
    forall i, (i < length kept)%nat -> same_axis h i g (nth i kept 0%nat)) as (h & E & R & M & N & V).
  { destruct kept as [|k0 kept'] eqn:Ek.
    - eexists. split; [reflexivity|]. split; [split; [reflexivity|split; [discriminate|intros i Hi; inversion Hi]]|].
      split; [reflexivity|]. split; [reflexivity|]. intros i Hi; inversion Hi.
    - rewrite <- Ek in *. clear Ek k0 kept'.
      destruct (rebuild (length kept) true
        (AVector RN DInt (map (fun i => nofZ RN (shape RN g i)) kept)) DInt (fun i => shape RN g (nth i kept 0%nat))
        (AVector RN (tag RN (step RN g)) (map (at_ RN (step RN g)) kept)) (tag RN (step RN g)) (fun i => at_ RN (step RN g) (nth i kept 0%nat))
        (Some (AVector RN (tag RN (center RN g)) (map (at_ RN (center RN g)) kept))) (tag RN (center RN g)) (fun i => at_ RN (center RN g) (nth i kept 0%nat))
        (BVector (map (flat RN g) kept)) (fun i => flat RN g (nth i kept 0%nat))
        (BVector (map (origin_at_center RN g) kept)) (fun i => origin_at_center RN g (nth i kept 0%nat))
        (BVector (map (center_at_index RN g) kept)) (fun i => center_at_index RN g (nth i kept 0%nat)) false)
        as (h & E & R & N & M & V & T); try discriminate.
      + apply (arg_is_map DInt (fun i => IZR (shape RN g i)) kept _ 0%nat eq_refl).
      + intros i Hi. apply Hg. apply Hb. assumption.
      + apply (arg_is_map _ (at_ RN (step RN g)) kept _ 0%nat eq_refl).
      + apply (arg_is_map _ (at_ RN (center RN g)) kept _ 0%nat eq_refl).
      + apply (flag_is_list (flat RN g) kept _ 0%nat eq_refl).
      + apply (flag_is_list (origin_at_center RN g) kept _ 0%nat eq_refl).
      + apply (flag_is_list (center_at_index RN g) kept _ 0%nat eq_refl).
      + exists h. split; [exact E|]. split; [assumption|]. split; [assumption|]. split; [assumption|]. exact V. }
  exists h. split; [exact E|]. split; [assumption|]. split; [assumption|]. split; [assumption|].
  intros i Hi. split; [apply Hb; assumption|]. split; [apply V; assumption|].
  apply same_axis_coordinates; auto. rewrite N. exact Hi.
Qed.

Theorem project_out_of_range g keep remove a :
  In a keep -> (a < - Z.of_nat (ndim RN g) \/ Z.of_nat (ndim RN g) <= a)%Z -> project RN g keep remove = Err IndexError.
Proof.
  intros Ha H. unfold project. replace (existsb _ keep) with true; [reflexivity|]. symmetry. apply existsb_exists.
  exists a. split; [assumption|lia].
Qed.

Lemma filter_true {A} (l : list A) (p : A -> bool) : (forall x, In x l -> p x = true) -> filter p l = l.
Proof.
  induction l as [|x l IH]; intros H; [reflexivity|]. simpl. rewrite H by (left; reflexivity).
  f_equal. apply IH. intros y Hy. apply H. right. assumption.
Qed.

Lemma resolve_nat n i : (i < n)%nat -> resolve n (Z.of_nat i) = i.
Proof. intros H. unfold resolve. rewrite Z.mod_small by lia. apply Nat2Z.id. Qed.

Theorem transpose_axes_ok g l :
  regular g -> (forall a, In a l -> (- Z.of_nat (ndim RN g) <= a < Z.of_nat (ndim RN g))%Z) ->
  exists h, transpose_axes RN g l = Ok h /\ regular h /\ multidimensional RN h = true /\ ndim RN h = length l /\
    forall i, (i < length l)%nat -> same_axis h i g (resolve (ndim RN g) (nth i l 0%Z)) /\
      coordinates h i = coordinates g (resolve (ndim RN g) (nth i l 0%Z)).
Proof.
  intros Hg Hl. unfold transpose_axes. destruct (project_ok g l [] Hg Hl) as (h & E & R & M & K). cbv zeta in K.
  rewrite filter_true in K by (intros; reflexivity). destruct K as (N & V).
  exists h. split; [assumption|]. split; [assumption|]. split; [assumption|]. rewrite map_length in *. split; [assumption|].
  intros i Hi. destruct (V i Hi) as (_ & V1 & V2).
  rewrite nth_indep with (d' := resolve (ndim RN g) 0%Z) in V1, V2 by (rewrite map_length; assumption).
  rewrite map_nth in V1, V2. split; assumption.
Qed.

Theorem transpose_ok g :
  regular g ->
  exists h, transpose RN g = Ok h /\ regular h /\ multidimensional RN h = true /\ ndim RN h = ndim RN g /\
    forall i, (i < ndim RN g)%nat -> same_axis h i g (ndim RN g - 1 - i)%nat /\ coordinates h i = coordinates g (ndim RN g - 1 - i)%nat.
Proof.
  intros Hg. destruct (transpose_axes_ok g (rev (map Z.of_nat (axes (ndim RN g)))) Hg) as (h & E & R & M & N & V).
  { intros a Ha. apply in_rev, in_map_iff in Ha as (i & <- & Hi). unfold axes in Hi. apply in_seq in Hi. lia. }
  rewrite rev_length, map_length, axes_length in *.
  exists h. repeat (split; [assumption|]). intros i Hi. specialize (V i Hi).
  rewrite rev_nth in V by (rewrite map_length, axes_length; assumption).
  rewrite map_length, axes_length in V. change 0%Z with (Z.of_nat 0) in V. rewrite map_nth, axes_nth, resolve_nat in V by lia.
  replace (ndim RN g - 1 - i)%nat with (ndim RN g - S i)%nat by lia. assumption.
Qed.

Lemma same_axis_trans a i b j c k : same_axis a i b j -> same_axis b j c k -> same_axis a i c k.
Proof. unfold same_axis. intros (?&?&?&?&?&?) (?&?&?&?&?&?). repeat split; congruence. Qed.

Theorem transpose_twice g :
  regular g -> exists h k, transpose RN g = Ok h /\ transpose RN h = Ok k /\ ndim RN k = ndim RN g /\
    forall i, (i < ndim RN g)%nat -> same_axis k i g i /\ coordinates k i = coordinates g i.
Proof.
  intros Hg. destruct (transpose_ok g Hg) as (h & E & R & M & N & V).
  destruct (transpose_ok h R) as (k & E' & R' & M' & N' & V'). exists h, k. split; [assumption|]. split; [assumption|].
  split; [congruence|]. intros i Hi. destruct (V' i) as (A1 & A2); [lia|]. rewrite N in A1, A2.
  destruct (V (ndim RN g - 1 - i)%nat) as (B1 & B2); [lia|].
  replace (ndim RN g - 1 - (ndim RN g - 1 - i))%nat with i in B1, B2 by lia.
  split; [eapply same_axis_trans; eassumption|congruence].
Qed.

Theorem matmul_ok g h :
  regular g -> regular h ->
  exists k, matmul RN g h = Ok k /\ regular k /\ multidimensional RN k = true /\ ndim RN k = (ndim RN g + ndim RN h)%nat /\
    (forall i, (i < ndim RN g)%nat -> same_axis k i g i /\ coordinates k i = coordinates g i) /\
    (forall i, (i < ndim RN h)%nat -> same_axis k (ndim RN g + i) h i /\ coordinates k (ndim RN g + i) = coordinates h i).
Proof.
  intros Hg Hh. unfold matmul. cbv zeta. set (n := ndim RN g). set (m := ndim RN h).
  assert (short_step RN g = false) as -> by apply Hg. assert (short_step RN h = false) as -> by apply Hh. fold n m.
  set (pick := fun {A} (f f' : nat -> A) (i : nat) => if Nat.ltb i n then f i else f' (i - n)%nat).
  assert (forall A (f f' : nat -> A) d i, (i < n + m)%nat -> nth i (map f (axes n) ++ map f' (axes m)) d = pick A f f' i) as Hpick.
  { intros A f f' d i Hi. unfold pick. destruct (Nat.ltb_spec i n).
    - rewrite app_nth1 by (rewrite map_length, axes_length; assumption). apply nth_error_nth_map_axes. assumption.
    - rewrite app_nth2 by (rewrite map_length, axes_length; lia). rewrite map_length, axes_length.
      apply nth_error_nth_map_axes. lia. }
  assert (forall d (f f' : nat -> R), arg_is (n + m) true (AVector RN d (map f (axes n) ++ map f' (axes m))) d (pick R f f')) as Harg.
  { intros d f f'. eapply arg_is_ext; [apply arg_is_list; rewrite app_length, !map_length, !axes_length; reflexivity|].
    intros i Hi. cbn beta. apply Hpick. assumption. }
  assert (forall (f f' : nat -> bool), flag_is (n + m) (BVector (map f (axes n) ++ map f' (axes m))) (pick bool f f')) as Hflag.
  { intros f f'. destruct (to_ndim_b_list (n + m) (map f (axes n) ++ map f' (axes m))) as (v & E & V);
      [rewrite app_length, !map_length, !axes_length; reflexivity|].
    exists v. split; [assumption|]. intros i Hi. rewrite V by assumption. apply Hpick. assumption. }
  destruct (rebuild (n + m) true
    (AVector RN DInt (map (fun i => nofZ RN (shape RN g i)) (axes n) ++ map (fun i => nofZ RN (shape RN h i)) (axes m))) DInt (pick Z (shape RN g) (shape RN h))
    (AVector RN (join (tag RN (step RN g)) (tag RN (step RN h))) (map (at_ RN (step RN g)) (axes n) ++ map (at_ RN (step RN h)) (axes m)))
      (join (tag RN (step RN g)) (tag RN (step RN h))) (pick R (at_ RN (step RN g)) (at_ RN (step RN h)))
    (Some (AVector RN (join (tag RN (center RN g)) (tag RN (center RN h))) (map (at_ RN (center RN g)) (axes n) ++ map (at_ RN (center RN h)) (axes m))))
      (join (tag RN (center RN g)) (tag RN (center RN h))) (pick R (at_ RN (center RN g)) (at_ RN (center RN h)))
    (BVector (map (flat RN g) (axes n) ++ map (flat RN h) (axes m))) (pick bool (flat RN g) (flat RN h))
    (BVector (map (origin_at_center RN g) (axes n) ++ map (origin_at_center RN h) (axes m))) (pick bool (origin_at_center RN g) (origin_at_center RN h))
    (BVector (map (center_at_index RN g) (axes n) ++ map (center_at_index RN h) (axes m))) (pick bool (center_at_index RN g) (center_at_index RN h)) false)
    as (k & E & R & N & M & V & T); try apply Hflag; try discriminate.
  - eapply arg_is_ext; [apply (Harg DInt (fun i => nofZ RN (shape RN g i)) (fun i => nofZ RN (shape RN h i)))|].
    intros i Hi. unfold pick. destruct (Nat.ltb i n); reflexivity.
  - intros i Hi. unfold pick. destruct (Nat.ltb_spec i n); [apply Hg; assumption|apply Hh; lia].
  - apply Harg.
  - apply Harg.
  - assert (forall i, (i < n)%nat -> same_axis k i g i) as A.
    { intros i Hi. destruct (V i) as (V1&V2&V3&V4&V5&V6); [lia|]. unfold pick in *.
      replace (Nat.ltb i n) with true in * by lia. unfold same_axis. auto 10. }
    assert (forall i, (i < m)%nat -> same_axis k (n + i) h i) as B.
    { intros i Hi. destruct (V (n + i)%nat) as (V1&V2&V3&V4&V5&V6); [lia|]. unfold pick in *.
      replace (Nat.ltb (n + i) n) with false in * by lia. replace (n + i - n)%nat with i in * by lia. unfold same_axis. auto 10. }
    exists k. split; [exact E|]. split; [assumption|]. split; [assumption|]. split; [assumption|].
    split; intros i Hi.
    + split; [apply A; assumption|]. apply same_axis_coordinates; auto. lia.
    + split; [apply B; assumption|]. apply same_axis_coordinates; auto. fold m n. lia.
Qed.

(* swapaxes *)
Lemma set_nth_length {A} i (x : A) l : length (set_nth i x l) = length l.
Proof. revert i; induction l; intros [|i]; simpl; auto. Qed.
Lemma set_nth_nth {A} i (x : A) l j d : (i < length l)%nat -> nth j (set_nth i x l) d = if Nat.eqb i j then x else nth j l d.
Proof.
  revert i j; induction l as [|y l IH]; intros i j H; simpl in H; [lia|].
  destruct i, j; simpl; auto. rewrite IH by lia. reflexivity.
Qed.

Lemma fold_set n (ps : list (Z * Z)) (acc : list Z) :
  length acc = n -> (forall p, In p ps -> (0 <= fst p < Z.of_nat n)%Z) -> NoDup (map fst ps) ->
  let r := fold_left (fun acc pv => set_nth (Z.to_nat (fst pv mod Z.of_nat n)) (snd pv) acc) ps acc in
  length r = n /\ (forall p v, In (p, v) ps -> nth (Z.to_nat p) r 0%Z = v) /\
  (forall j, (forall v, ~ In (Z.of_nat j, v) ps) -> nth j r 0%Z = nth j acc 0%Z).
Proof.
  cbv zeta. revert acc; induction ps as [|[p v] ps IH]; intros acc Hl Hb Hnd; cbn [fold_left].
  - split; [assumption|]. split; [intros ? ? []|reflexivity].
  - cbn [map fst] in Hnd. inversion Hnd as [|? ? Hni Hnd']; subst.
    assert (0 <= p < Z.of_nat (length acc))%Z as Hp by (apply (Hb (p, v)); left; reflexivity).
    cbn [fst snd]. rewrite (Z.mod_small p) by assumption.
    destruct (IH (set_nth (Z.to_nat p) v acc)) as (L & V & U); [apply set_nth_length| |assumption|].
    { intros q Hq. apply Hb. right. assumption. }
    split; [assumption|]. split.
    + intros q w [E|Hq].
      * injection E as -> ->. rewrite U; [rewrite set_nth_nth, Nat.eqb_refl by lia; reflexivity|].
        intros w' Hw'. apply Hni. apply in_map_iff. exists (q, w'). split; [cbn; lia|].
        rewrite Z2Nat.id in Hw' by lia. assumption.
      * apply V. assumption.
    + intros j Hj. rewrite U.
      * rewrite set_nth_nth by lia. destruct (Nat.eqb_spec (Z.to_nat p) j) as [<-|]; [|reflexivity].
        exfalso. apply (Hj v). left. f_equal. lia.
      * intros w Hw. apply (Hj w). right. assumption.
Qed.

(** Distinct axes: position [l_i] shows axis [l_{m-1-i}], all other axes stay. *)
Theorem swapaxes_ok g (l : list nat) :
  regular g -> NoDup l -> (forall a, In a l -> (a < ndim RN g)%nat) ->
  exists h, swapaxes RN g (map Z.of_nat l) = Ok h /\ regular h /\ ndim RN h = ndim RN g /\
    (forall i, (i < length l)%nat -> same_axis h (nth i l 0%nat) g (nth i (rev l) 0%nat)) /\
    (forall a, (a < ndim RN g)%nat -> ~ In a l -> same_axis h a g a).
Proof.
  intros Hg Hnd Hb. unfold swapaxes. set (n := ndim RN g) in *.
  assert (existsb (fun a => (Z.of_nat n <=? a)%Z || (a <? - Z.of_nat n)%Z) (map Z.of_nat l) = false)%bool as ->.
  { destruct (existsb _ _) eqn:E; [|reflexivity]. exfalso. apply existsb_exists in E as (a & Ha & E).
    apply in_map_iff in Ha as (b & <- & Ha). apply Hb in Ha. lia. }
  rewrite <- map_rev.
  set (ps := combine (map Z.of_nat l) (map Z.of_nat (rev l))).
  assert (length (map Z.of_nat l) = length (map Z.of_nat (rev l))) as Hlen by (rewrite !map_length, rev_length; reflexivity).
  assert (forall (u v : list Z), length u = length v -> map fst (combine u v) = u) as Hfst.
  { induction u as [|x u IH]; intros [|y v] H; try discriminate; [reflexivity|]. cbn. f_equal. apply IH. cbn in H. lia. }
  destruct (fold_set n ps (map Z.of_nat (axes n))) as (L & V & U).
  - rewrite map_length. apply axes_length.
  - intros [p v] Hp. apply in_combine_l in Hp. apply in_map_iff in Hp as (a & <- & Ha). apply Hb in Ha. cbn [fst]. lia.
  - unfold ps. rewrite Hfst by assumption. apply FinFun.Injective_map_NoDup; [|assumption]. intros x y. apply Nat2Z.inj.
  - set (r := fold_left _ ps _) in *.
    assert (forall i, (i < length l)%nat -> nth (nth i l 0%nat) r 0%Z = Z.of_nat (nth i (rev l) 0%nat)) as V1.
    { intros i Hi. rewrite <- (Nat2Z.id (nth i l 0%nat)). apply V. unfold ps.
      rewrite <- (map_nth Z.of_nat), <- (map_nth Z.of_nat), <- combine_nth by assumption. apply nth_In.
      rewrite combine_length, <- Hlen, map_length. lia. }
    assert (forall a, (a < n)%nat -> ~ In a l -> nth a r 0%Z = Z.of_nat a) as V2.
    { intros a Ha Hn. rewrite U.
      - change 0%Z with (Z.of_nat 0). rewrite map_nth, axes_nth by assumption. reflexivity.
      - intros v Hv. apply in_combine_l in Hv. apply in_map_iff in Hv as (b & E & Hin). apply Nat2Z.inj in E. congruence. }
    assert (forall j, (j < n)%nat -> (0 <= nth j r 0 < Z.of_nat n)%Z) as Hr.
    { intros j Hj. destruct (in_dec Nat.eq_dec j l) as [Hin|Hin].
      - apply In_nth with (d := 0%nat) in Hin as (i & Hi & <-). rewrite V1 by assumption.
        assert (In (nth i (rev l) 0%nat) l) as Hx by (apply in_rev, nth_In; rewrite rev_length; assumption).
        apply Hb in Hx. lia.
      - rewrite V2 by assumption. lia. }
    destruct (transpose_axes_ok g r Hg) as (h & E & R & M & N & W).
    { intros a Ha. apply In_nth with (d := 0%Z) in Ha as (j & Hj & <-). fold n. specialize (Hr j). lia. }
    exists h. split; [exact E|]. split; [assumption|]. rewrite L in *. split; [assumption|].
    assert (forall j, (j < n)%nat -> resolve n (nth j r 0%Z) = Z.to_nat (nth j r 0%Z)) as Hres.
    { intros j Hj. unfold resolve. rewrite Z.mod_small by (apply Hr; assumption). reflexivity. }
    split.
    + intros i Hi. assert (nth i l 0 < n)%nat as Hj by (apply Hb, nth_In; assumption).
      destruct (W (nth i l 0%nat) Hj) as (W1 & _). fold n in W1. rewrite Hres, V1, Nat2Z.id in W1 by assumption. assumption.
    + intros a Ha Hn. destruct (W a Ha) as (W1 & _). fold n in W1. rewrite Hres, V2, Nat2Z.id in W1 by assumption. assumption.
Qed.
