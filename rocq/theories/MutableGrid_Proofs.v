From Coq Require Import Reals Lra Lia List ZifyBool ZifyNat.
From Flocq Require Import Core.Raux.
From Coq Require Import QArith.QArith_base QArith.Qcanon.
From Verif Require Grid_Tests Grid_Refutations.
From Verif Require Import Base Num Grid_Model Grid_Spec Grid_Proofs Grid_Rebuild Grid_Ops MutableGrid_Model MutableGrid_Spec.
Local Open Scope R_scope.
Ltac Zify.zify_post_hook ::= Z.div_mod_to_equations.

Lemma to_ndim_reads n a v i :
  to_ndim RN n a = Ok v -> (i < n)%nat -> requested (Some a) i (at_ RN v i).
Proof.
  unfold to_ndim, requested. destruct a as [d x|d l].
  - intros [= <-] _. reflexivity.
  - destruct l as [|x [|y l]].
    + destruct (Nat.eqb (length []) n) eqn:E; [|discriminate]. apply Nat.eqb_eq in E. simpl in E. lia.
    + intros [= <-] _. reflexivity.
    + destruct (Nat.eqb _ n) eqn:E; [|discriminate]. intros [= <-] Hi. apply Nat.eqb_eq in E.
      apply (nth_error_nth' (x :: y :: l) (nofZ RN 0)). rewrite E. exact Hi.
Qed.
Lemma to_ndim_b_reads n b v i : to_ndim_b n b = Ok v -> (i < n)%nat -> requested_flag b i (v i).
Proof.
  unfold to_ndim_b, requested_flag. destruct b as [x|l].
  - intros [= <-] _. reflexivity.
  - destruct l as [|x [|y l]].
    + destruct (Nat.eqb (length []) n) eqn:E; [|discriminate]. apply Nat.eqb_eq in E. simpl in E. lia.
    + intros [= <-] _. reflexivity.
    + destruct (Nat.eqb _ n) eqn:E; [|discriminate]. intros [= <-] Hi. apply Nat.eqb_eq in E.
      apply (nth_error_nth' (x :: y :: l) false). rewrite E. exact Hi.
Qed.
Lemma to_ndim_i_reads n a v i : to_ndim_i n a = Ok v -> (i < n)%nat -> requested_int a i (v i).
Proof.
  unfold to_ndim_i, requested_int. destruct a as [x|l].
  - intros [= <-] _. reflexivity.
  - destruct l as [|x [|y l]].
    + destruct (Nat.eqb (length []) n) eqn:E; [|discriminate]. apply Nat.eqb_eq in E. simpl in E. lia.
    + intros [= <-] _. reflexivity.
    + destruct (Nat.eqb _ n) eqn:E; [|discriminate]. intros [= <-] Hi. apply Nat.eqb_eq in E.
      apply (nth_error_nth' (x :: y :: l) 0%Z). rewrite E. exact Hi.
Qed.

Lemma first_of_first g i : first_of (center_at_index RN g) (view_of g) i = first RN g i.
Proof.
  rewrite first_from_center. unfold first_of, center_offset. cbn [view_of w_center w_step w_shape].
  destruct (center_at_index RN g i); rn; rewrite ?minus_IZR; ring.
Qed.

Lemma astype_up d v : (d = DInt -> tag RN v = DInt) -> forall i, at_ RN (astype RN d v) i = at_ RN v i.
Proof. intros H i. unfold astype. destruct d; [rewrite H by reflexivity|destruct (tag RN v)]; reflexivity. Qed.

Lemma dtype_ok g d : dtype RN g = Ok d -> d = join (tag RN (step RN g)) (tag RN (center RN g)) /\ ndim RN g <> 0%nat.
Proof. unfold dtype. destruct (Nat.eqb_spec (ndim RN g) 0); [discriminate|]. intros [= <-]. auto. Qed.
Lemma dtype_some g : ndim RN g <> 0%nat -> dtype RN g = Ok (join (tag RN (step RN g)) (tag RN (center RN g))).
Proof. intros H. unfold dtype. destruct (Nat.eqb_spec (ndim RN g) 0); [contradiction|reflexivity]. Qed.

Lemma join_int a b : join a b = DInt -> a = DInt /\ b = DInt.
Proof. destruct a, b; cbn; auto; discriminate. Qed.

Theorem assign_ok g s g' :
  regular g -> exact_setter g s -> assign RN g s = Ok g' ->
  regular g' /\ ndim RN g' = ndim RN g /\ multidimensional RN g' = multidimensional RN g /\
  (center_at_index RN g' = center_at_index RN g) /\
  assigned (ndim RN g) (center_at_index RN g) (view_of g) s (view_of g').
Proof.
  intros Hg Hx H. destruct Hg as (Hs & Hm & Hsh). unfold assigned.
  destruct s as [a|a|a|a|b|b|d]; cbn [assign] in H.
  - unfold set_shape in H. apply bind_ok in H as (v & E & H). injection H as <-.
    split; [split; [assumption|]; split; [assumption|]|].
    + intros i Hi. cbn [upd_shape ndim shape] in *. apply (Hx i). apply to_ndim_i_reads with (n := ndim RN g); assumption.
    + do 3 (split; [reflexivity|]). intros i Hi. cbn. repeat split; auto. eapply to_ndim_i_reads; eassumption.
  - unfold set_step in H. apply bind_ok in H as (v & E & H). apply bind_ok in H as (d & Ed & H). injection H as <-.
    apply dtype_ok in Ed as (-> & _). cbn [upd_step step center tag] in *.
    split; [split; [reflexivity|]; split; assumption|].
    do 3 (split; [reflexivity|]). intros i Hi. cbn. unfold step_of, center_of. cbn [upd_step step center].
    repeat split; auto; [eapply to_ndim_reads; eassumption|]. apply astype_up. intros Hd. apply join_int in Hd. tauto.
  - unfold set_center in H. apply bind_ok in H as (v & E & H). apply bind_ok in H as (d & Ed & H). injection H as <-.
    apply dtype_ok in Ed as (Ed & _).
    split; [split; [assumption|]; split; assumption|].
    do 3 (split; [reflexivity|]). intros i Hi. cbn. unfold step_of, center_of. cbn [upd_center step center].
    repeat split; auto.
    pose proof (to_ndim_reads _ _ _ _ E Hi) as Hr. cbn [exact_setter] in Hx.
    replace (at_ RN (astype RN d v) i) with (at_ RN v i); [exact Hr|].
    destruct Hx as [Hf|Hz].
    + symmetry. apply astype_up. intros ->. symmetry in Ed. apply join_int in Ed as (E1 & E2). destruct Hf; congruence.
    + destruct (Hz i _ Hr) as (z & Ez). unfold astype. destruct d, (tag RN v); auto. cbn [at_]. rewrite RN_ntrunc. cbn.
      rewrite Ez, Ztrunc_IZR. reflexivity.
  - unfold set_first in H. apply bind_ok in H as (v & E & H). injection H as <-.
    split; [split; [assumption|]; split; assumption|].
    do 3 (split; [reflexivity|]). intros i Hi.
    pose proof (to_ndim_reads _ _ _ _ E Hi) as Hr.
    split.
    + replace (first_of _ _ _) with (at_ RN v i); [exact Hr|].
      unfold first_of. cbn [view_of w_shape w_center w_step]. unfold center_of, step_of. cbn [upd_center center at_ vsub vadd shape step center_at_index].
      rewrite <- (first_of_first g i). unfold first_of. cbn [view_of w_shape w_center w_step]. unfold center_of, step_of.
      cbn [upd_center center step shape vsub vadd at_ center_at_index]. set (q := if center_at_index RN g i then _ else _). rn.
 symmetry. ring.
    + cbn. auto.
  - unfold set_flat in H. apply bind_ok in H as (v & E & H). injection H as <-.
    split; [split; [assumption|]; split; assumption|]. do 3 (split; [reflexivity|]). intros i Hi. cbn.
    repeat split; auto. eapply to_ndim_b_reads; eassumption.
  - unfold set_origin_at_center in H. apply bind_ok in H as (v & E & H). injection H as <-.
    split; [split; [assumption|]; split; assumption|]. do 3 (split; [reflexivity|]). intros i Hi. cbn.
    repeat split; auto. eapply to_ndim_b_reads; eassumption.
  - injection H as <-. cbn in Hx. subst d.
    split; [split; [assumption|]; split; assumption|]. do 3 (split; [reflexivity|]). intros i Hi. cbn.
    unfold step_of, center_of. cbn [set_dtype step center]. repeat split; auto; apply astype_up; discriminate.
Qed.

Lemma fold_assign_err l e : fold_left (fun r s => do g <- r; assign RN g s) l (Err e) = Err e.
Proof. induction l; [reflexivity|assumption]. Qed.

Theorem history_ok l : forall g g',
  regular g -> exact_history g l -> assign_all RN g l = Ok g' ->
  regular g' /\ ndim RN g' = ndim RN g /\ multidimensional RN g' = multidimensional RN g /\
  center_at_index RN g' = center_at_index RN g /\
  assigned_all (ndim RN g) (center_at_index RN g) (view_of g) l (view_of g').
Proof.
  induction l as [|s l IH]; intros g g' Hg Hx H.
  - injection H as <-. do 4 (split; [assumption || reflexivity|]). intros i Hi. auto.
  - unfold assign_all in H. cbn [fold_left bind] in H. destruct (assign RN g s) as [g1|e] eqn:E.
    2:{ rewrite fold_assign_err in H. discriminate. }
    destruct Hx as (Hx1 & Hx2).
    destruct (assign_ok g s g1 Hg Hx1 E) as (R1 & N1 & M1 & C1 & A1).
    destruct (IH g1 g' R1 (Hx2 g1 E) H) as (R2 & N2 & M2 & C2 & A2).
    split; [assumption|]. split; [congruence|]. split; [congruence|]. split; [congruence|].
    cbn [assigned_all]. exists (view_of g1). split; [assumption|]. rewrite <- N1, <- C1. assumption.
Qed.

Theorem history_immutable g l g' :
  regular g -> exact_history g l -> assign_all RN g l = Ok g' ->
  exists h, immutable RN g' = Ok h /\ same_grid h g'.
Proof.
  intros Hg Hx H. destruct (history_ok l g g' Hg Hx H) as (R & _).
  destruct (views_ok g' R) as ((h & E & _ & S) & _). eauto.
Qed.

(** Assignments with values of a suitable length never fail on a grid with at least one axis. *)
Definition arg_fits (n : nat) (a : arg RN) : Prop :=
  match a with AScalar _ _ _ => True | AVector _ _ l => length l = 1%nat \/ length l = n end.
Lemma to_ndim_fits n a : arg_fits n a -> exists v, to_ndim RN n a = Ok v.
Proof.
  destruct a as [d x|d l]; [eauto using eq_refl|]. intros [H|H].
  - destruct l as [|x [|? ?]]; try discriminate. cbn. eauto.
  - destruct (to_ndim_list n d l H) as (v & E & _). eauto.
Qed.
Theorem set_center_succeeds g a : ndim RN g <> 0%nat -> arg_fits (ndim RN g) a -> exists g', set_center RN g a = Ok g'.
Proof.
  intros Hn F. destruct (to_ndim_fits _ _ F) as (v & E). unfold set_center. rewrite E. cbn [bind].
  rewrite (dtype_some g Hn). cbn [bind]. eauto.
Qed.
Theorem set_step_succeeds g a : ndim RN g <> 0%nat -> arg_fits (ndim RN g) a -> exists g', set_step RN g a = Ok g'.
Proof.
  intros Hn F. destruct (to_ndim_fits _ _ F) as (v & E). unfold set_step. rewrite E. cbn [bind].
  rewrite dtype_some by exact Hn. cbn [bind]. eauto.
Qed.
Theorem set_first_succeeds g a : arg_fits (ndim RN g) a -> exists g', set_first RN g a = Ok g'.
Proof.
  intros F. destruct (to_ndim_fits _ _ F) as (v & E). unfold set_first. rewrite E. cbn [bind]. eauto.
Qed.

(* ---------- in-place arithmetic (C08) ---------- *)
Definition operand_tag (o : operand RN) : dt := match o with OScalar _ d _ => d | OArray _ d _ => d | OSequence _ d _ => d end.

Lemma operand_tag_arg n o v : to_ndim RN n (operand_arg RN o) = Ok v -> tag RN v = operand_tag o.
Proof.
  destruct o as [d x|d l|d l]; cbn [operand_arg operand_tag]; unfold to_ndim.
  - intros [= <-]. reflexivity.
  - destruct l as [|x [|y l]]; try (intros [= <-]; reflexivity); destruct (Nat.eqb _ _); try discriminate; intros [= <-]; reflexivity.
  - destruct l as [|x [|y l]]; try (intros [= <-]; reflexivity); destruct (Nat.eqb _ _); try discriminate; intros [= <-]; reflexivity.
Qed.

Lemma inplace_ok op v g o :
  operand_fits g o -> (tag RN v = DInt -> operand_tag o = DInt) ->
  exists t, to_ndim RN (ndim RN g) (operand_arg RN o) = Ok t /\
    inplace RN op v (ndim RN g) o = Ok {| tag := tag RN v; at_ := at_ RN (op v t) |} /\
    forall i x, (i < ndim RN g)%nat -> operand_value o i x -> at_ RN t i = x.
Proof.
  intros F K. destruct (operand_to_ndim g o F) as (t & E & V). exists t. split; [assumption|]. split; [|assumption].
  unfold inplace. rewrite E. cbn [bind]. rewrite (operand_tag_arg _ _ _ E).
  destruct (tag RN v) eqn:Et; [rewrite K by reflexivity; reflexivity|]. destruct (operand_tag o); reflexivity.
Qed.

Lemma assign_center_ok g c :
  ndim RN g <> 0%nat -> (tag RN c = DFlt -> floating g) ->
  exists g', assign_center RN g c = Ok g' /\ ndim RN g' = ndim RN g /\ multidimensional RN g' = multidimensional RN g /\
    short_step RN g' = short_step RN g /\ shape RN g' = shape RN g /\ flat RN g' = flat RN g /\ step RN g' = step RN g /\
    origin_at_center RN g' = origin_at_center RN g /\ center_at_index RN g' = center_at_index RN g /\
    forall i, center_of g' i = at_ RN c i.
Proof.
  intros Hn Hf. unfold assign_center. rewrite dtype_some by assumption. cbn [bind]. eexists. split; [reflexivity|].
  repeat (split; [reflexivity|]). intros i. unfold center_of. cbn [upd_center center]. apply astype_up.
  intros E. apply join_int in E as (E1 & E2). destruct (tag RN c) eqn:Ec; [reflexivity|].
  destruct (Hf eq_refl); congruence.
Qed.

Theorem iadd_object g o :
  regular g -> ndim RN g <> 0%nat -> operand_fits g o -> (tag RN (center RN g) = DInt -> operand_tag o = DInt) ->
  exists g', iadd RN g o = Ok (g', PNone RN) /\ regular g' /\ same_layout g' g /\
    forall t : nat -> R, (forall i, (i < ndim RN g)%nat -> operand_value o i (t i)) -> coordinatewise g g' (fun i x => x + t i).
Proof.
  intros Hg Hn F K. destruct (inplace_ok (vadd RN) (center RN g) g o F K) as (v & Ev & Ei & Vv).
  unfold iadd. rewrite Ei. cbn [bind].
  match goal with |- context [assign_center RN g ?c] => destruct (assign_center_ok g c Hn) as (g' & E & A1 & A2 & A3 & A4 & A5 & A6 & A7 & A8 & A9) end.
  { cbn [tag]. intros Hf. right. exact Hf. }
  rewrite E. cbn [bind]. exists g'. split; [reflexivity|].
  assert (regular g') as R'.
  { destruct Hg as (H1 & H2 & H3). split; [congruence|]. rewrite A1, A2, A4. split; assumption. }
  assert (same_layout g' g) as L.
  { split; [assumption|]. split; [assumption|]. intros i Hi. rewrite A4, A5, A7, A8. auto. }
  split; [assumption|]. split; [assumption|]. intros t Ht.
  eapply coordinatewise_ext; [apply (affine_coordinates g g' (fun _ => 1) t Hg R' L)|intros; cbn; ring].
  intros i Hi. rewrite A9. unfold step_of. rewrite A6. cbn [vadd at_]. rewrite (Vv i (t i)) by auto. unfold center_of. split; rring.
Qed.

Theorem isub_object g o :
  regular g -> ndim RN g <> 0%nat -> operand_fits g o -> (tag RN (center RN g) = DInt -> operand_tag o = DInt) ->
  exists g', isub RN g o = Ok (g', PNone RN) /\ regular g' /\ same_layout g' g /\
    forall t : nat -> R, (forall i, (i < ndim RN g)%nat -> operand_value o i (t i)) -> coordinatewise g g' (fun i x => x - t i).
Proof.
  intros Hg Hn F K. destruct (inplace_ok (vsub RN) (center RN g) g o F K) as (v & Ev & Ei & Vv).
  unfold isub. rewrite Ei. cbn [bind].
  match goal with |- context [assign_center RN g ?c] => destruct (assign_center_ok g c Hn) as (g' & E & A1 & A2 & A3 & A4 & A5 & A6 & A7 & A8 & A9) end.
  { cbn [tag]. intros Hf. right. exact Hf. }
  rewrite E. cbn [bind]. exists g'. split; [reflexivity|].
  assert (regular g') as R'.
  { destruct Hg as (H1 & H2 & H3). split; [congruence|]. rewrite A1, A2, A4. split; assumption. }
  assert (same_layout g' g) as L.
  { split; [assumption|]. split; [assumption|]. intros i Hi. rewrite A4, A5, A7, A8. auto. }
  split; [assumption|]. split; [assumption|]. intros t Ht.
  eapply coordinatewise_ext; [apply (affine_coordinates g g' (fun _ => 1) (fun i => - t i) Hg R' L)|intros; cbn; ring].
  intros i Hi. rewrite A9. unfold step_of. rewrite A6. cbn [vsub at_]. rewrite (Vv i (t i)) by auto. unfold center_of. split; rring.
Qed.

Theorem imul_object g o :
  regular g -> ndim RN g <> 0%nat -> operand_fits g o ->
  (tag RN (step RN g) = DInt \/ tag RN (center RN g) = DInt -> operand_tag o = DInt) ->
  exists g', imul RN g o = Ok (g', PNone RN) /\ regular g' /\ same_layout g' g /\
    forall t : nat -> R, (forall i, (i < ndim RN g)%nat -> operand_value o i (t i)) -> coordinatewise g g' (fun i x => t i * x).
Proof.
  intros Hg Hn F K. destruct (inplace_ok (vmul RN) (step RN g) g o F) as (v & Ev & Ei & Vv); [tauto|].
  unfold imul. rewrite Ei. cbn [bind]. unfold assign_step. rewrite dtype_some by exact Hn. cbn [bind]. cbn [upd_step step center tag].
  set (c0 := astype RN _ (center RN g)).
  set (g1 := upd_step RN g _ c0).
  assert (forall i, at_ RN c0 i = center_of g i) as Hc0.
  { intros i. unfold c0. apply astype_up. intros Ej. apply join_int in Ej. tauto. }
  assert (tag RN c0 = DInt -> tag RN (center RN g) = DInt) as Ht0.
  { unfold c0, astype. destruct (tag RN (step RN g)), (tag RN (center RN g)); cbn; auto. }
  assert (operand_fits g1 o) as F1 by (destruct o; exact F).
  destruct (inplace_ok (vmul RN) (center RN g1) g1 o F1) as (w & Ew & Ej & Vw).
  { intros E. apply K. right. apply Ht0. exact E. }
  change (inplace RN (vmul RN) c0 (ndim RN g) o) with (inplace RN (vmul RN) (center RN g1) (ndim RN g1) o). rewrite Ej. cbn [bind].
  match goal with |- context [assign_center RN g1 ?c] => destruct (assign_center_ok g1 c Hn) as (g' & E & A1 & A2 & A3 & A4 & A5 & A6 & A7 & A8 & A9) end.
  { cbn [tag]. intros Hf. right. exact Hf. }
  rewrite E. cbn [bind]. exists g'. split; [reflexivity|].
  assert (regular g') as R'.
  { destruct Hg as (H1 & H2 & H3). split; [rewrite A3; reflexivity|]. rewrite A1, A2, A4. split; assumption. }
  assert (same_layout g' g) as L.
  { split; [assumption|]. split; [assumption|]. intros i Hi. rewrite A4, A5, A7, A8. auto. }
  split; [assumption|]. split; [assumption|]. intros t Ht.
  eapply coordinatewise_ext; [apply (affine_coordinates g g' t (fun _ => 0) Hg R' L)|intros; cbn; ring].
  intros i Hi. rewrite A9. unfold step_of. rewrite A6. unfold g1. cbn [vmul at_ upd_step step center]. rewrite (Vv i (t i)), (Vw i (t i)) by auto.
  rewrite Hc0. split; rring.
Qed.

Theorem inplace_rebinds_none g o g' v :
  iadd RN g o = Ok (g', v) \/ isub RN g o = Ok (g', v) \/ imul RN g o = Ok (g', v) -> v = PNone RN.
Proof.
  intros [H|[H|H]]; unfold iadd, isub, imul in H; repeat (apply bind_ok in H as (? & _ & H)); injection H as _ <-; reflexivity.
Qed.
Theorem itruediv_immutable g o g' v :
  itruediv RN g o = Ok (g', v) -> g' = g /\ exists h, v = PGrid RN h /\ div RN g o = Ok h.
Proof. intros H. unfold itruediv in H. apply bind_ok in H as (h & E & H). injection H as <- <-. eauto. Qed.

(** MutableGrid(4, 1).center = 0.5 *)
Lemma center_truncated :
  exists g g', mutable_construct QN (Grid_Tests.G (Some (Grid_Tests.z 4)) (Some (Grid_Tests.z 1)) None None None None false true) = Ok g /\
    set_center QN g (Grid_Tests.q (1 # 2)) = Ok g' /\ Qcanon.this (at_ QN (center QN g') 0%nat) = 0%Q.
Proof.
  destruct (Grid_Refutations.witness (mutable_construct QN (Grid_Tests.G (Some (Grid_Tests.z 4)) (Some (Grid_Tests.z 1)) None None None None false true))
    (fun g => match set_center QN g (Grid_Tests.q (1 # 2)) with
              | Ok g' => let x := Qcanon.this (at_ QN (center QN g') 0%nat) in let y := 0%Q in
                 QArith_base.Qeq_bool x y && (QArith_base.Qnum x =? QArith_base.Qnum y)%Z && (Z.pos (QArith_base.Qden x) =? Z.pos (QArith_base.Qden y))%Z
              | Err _ => false end)) as (g & E & H).
  - vm_compute. reflexivity.
  - destruct (set_center QN g _) as [g'|] eqn:F; [|discriminate H]. exists g, g'. split; [exact E|]. split; [exact F|].
    apply Grid_Refutations.qc_eqb. exact H.
Qed.
