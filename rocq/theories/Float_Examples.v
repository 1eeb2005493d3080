(** Concrete calls in double precision, and the same calls in exact arithmetic. *)
From Coq Require Import ZArith Reals Lia Lra Psatz List.
From Flocq Require Import Core.Core IEEE754.BinarySingleNaN.
From Verif Require Import Base Num Grid_Model Grid_Proofs Float_Model Float_Spec Float_Basics Float_Construct Float_Derived.
Local Open Scope R_scope.

(** [Grid(shape=, first=, last=)] is always accepted in exact arithmetic. *)
Lemma exact_counts sh : counted sh -> map val (map (nofZ BN) sh) = map IZR sh.
Proof.
  intros C. rewrite map_map. apply map_ext_in. intros z H. unfold counted in C. rewrite List.Forall_forall in C.
  apply ofZ_eq. specialize (C z H). cbn in C. lia.
Qed.
Lemma nth_map_IZR i l : nth i (map IZR l) 0 = IZR (nth i l 0%Z).
Proof. change 0 with (IZR 0) at 1. apply map_nth. Qed.

Lemma exact_linspace sh fi la : counted sh -> length fi = length sh -> length la = length sh ->
  exists g, construct RN (exact (call (counts sh) None None (Some (DFlt, fi)) None (Some (DFlt, la)))) = Ok g.
Proof.
  intros C L1 L2. set (d := length sh) in *.
  assert (exact (call (counts sh) None None (Some (DFlt, fi)) None (Some (DFlt, la))) =
    {| a_shape := Some (AVector RN DInt (map IZR sh)); a_step := None; a_extent := None;
       a_first := Some (AVector RN DFlt (map val fi)); a_center := None; a_last := Some (AVector RN DFlt (map val la));
       a_include_last := BScalar false; a_ndim := None; a_flat := BScalar false;
       a_origin_at_center := BScalar true; a_center_at_index := BScalar true |}) as ->.
  { unfold exact, call, counts. cbn [a_shape a_step a_extent a_first a_center a_last exact_arg a_include_last a_ndim a_flat a_origin_at_center a_center_at_index].
    rewrite exact_counts by exact C. reflexivity. }
  destruct (to_ndim_list d DInt (map IZR sh)) as (vs & E1 & T1 & A1); [rewrite map_length; reflexivity|].
  destruct (to_ndim_list d DFlt (map val fi)) as (vf & E2 & T2 & A2); [rewrite map_length; exact L1|].
  destruct (to_ndim_list d DFlt (map val la)) as (vl & E3 & T3 & A3); [rewrite map_length; exact L2|].
  unfold construct.
  match goal with |- context [ndim_of RN ?a] => assert (ndim_of RN a = d) as N end.
  { unfold ndim_of. cbn [a_ndim a_shape a_step a_extent a_first a_center a_last arg_size].
    rewrite !map_length, L1, L2. fold d. rewrite ?Nat.max_0_r, ?Nat.max_0_l, ?Nat.max_id. reflexivity. }
  rewrite N. cbn [a_shape a_step a_extent a_first a_center a_last to_ndim_opt].
  rewrite E1, E2, E3. cbn [rmap bind to_ndim_b a_flat a_origin_at_center a_include_last a_center_at_index].
  unfold find_shape. cbn [v_shape bind].
  assert (forall i, (i < d)%nat -> (1 <= round_shape RN vs i)%Z) as RS by (intros i Hi; unfold round_shape; lia).
  unfold find_step. cbn [v_step v_extent v_last v_first v_center].
  rewrite (proj2 (vall_true _ _)) by (intros i Hi; apply Z.ltb_lt; pose proof (RS i Hi); lia).
  set (shv := {| tag := DInt; at_ := fun i => nofZ RN (round_shape RN vs i - 0) |} : vec RN).
  assert (vdiv RN d (vsub RN vl vf) shv = Ok ({| tag := DFlt; at_ := fun i => ((at_ RN vl i - at_ RN vf i) / IZR (round_shape RN vs i - 0) : RN) |} : vec RN)) as ->.
  { unfold vdiv. rewrite (proj2 (vall_true _ _)); [reflexivity|]. intros i Hi. apply Bool.negb_true_iff, RN_neqb_false.
    cbn [shv at_]. rn. apply not_0_IZR. pose proof (RS i Hi). lia. }
  cbn [bind]. unfold cast_back at 1.
  assert (tag RN (vsub RN vl vf) = DFlt) as -> by (cbn; rewrite T2, T3; reflexivity).
  cbn [is_int andb at_].
  set (q := fun i => ((at_ RN vl i - at_ RN vf i) / IZR (round_shape RN vs i - 0) : RN)).
  set (stp := if vall d (fun i => neqb RN (q i) (nofZ RN (ntrunc (N := RN) (q i))))
              then {| tag := DInt; at_ := fun i => nofZ RN (ntrunc (N := RN) (q i)) |} else {| tag := DFlt; at_ := q |} : vec RN).
  match goal with |- context [let '(st, short) := ?x in _] => 
    assert (x = (stp, false)) as -> by (unfold stp; destruct (vall d _); reflexivity) end.
  assert (forall i, (i < d)%nat -> at_ RN stp i = q i) as ST.
  { intros i Hi. unfold stp. destruct (vall d _) eqn:E; cbn [at_]; [|reflexivity].
    rewrite vall_true in E. apply ntrunc_exact. apply E. exact Hi. }
  unfold find_center. cbn [v_center v_first bind py_step andb].
  unfold cast_back.
  assert (is_int (tag RN (vadd RN vf stp)) = false) as -> by (cbn; rewrite T2; reflexivity).
  cbn [andb bind]. unfold check_extent, check_last, check_first. cbn [v_extent v_last v_first bind at_].
  rewrite (proj2 (vall_true _ _)).
  2: { intros i Hi. apply RN_neqb_true. rewrite ST by exact Hi. unfold q, bnum. rn. rewrite Z.sub_0_r.
       assert (IZR (round_shape RN vs i) <> 0) by (apply not_0_IZR; pose proof (RS i Hi); lia). field. assumption. }
  cbn [bind]. rewrite (proj2 (vall_true _ _)) by (intros i Hi; apply RN_neqb_true; reflexivity).
  cbn [bind py_step]. eexists. reflexivity.
Qed.


Lemma rmap_ok {A B} (f : A -> B) r b : rmap f r = Ok b -> exists a, r = Ok a /\ f a = b.
Proof. destruct r; cbn; intros H; [|discriminate]. injection H as <-. eexists. split; reflexivity. Qed.
Lemma eqb_sym x y : neqb BN x y = true -> neqb BN y x = true.
Proof.
  cbn [neqb BN]. unfold Beqb, SpecFloat.SFeqb.
  change (SpecFloat.SFcompare (B2SF x) (B2SF y)) with (Bcompare x y). change (SpecFloat.SFcompare (B2SF y) (B2SF x)) with (Bcompare y x).
  rewrite (Bcompare_swap 53 1024 x y). destruct (Bcompare x y) as [[]|]; cbn; congruence.
Qed.
Lemma rmap_err {A B} (f : A -> B) r e : rmap f r = Err e -> r = Err e.
Proof. destruct r; cbn; intros H; [discriminate|]. injection H as <-. reflexivity. Qed.
