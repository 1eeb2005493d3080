(** C07 and C08: mutable grids. *)
From Coq Require Import QArith Qcanon Reals Lra.
From Verif Require Import Base Num Grid_Model Grid_Spec Grid_Proofs Grid_Rebuild Grid_Ops Grid_Tests Grid_Refutations.
From Verif Require Import MutableGrid_Model MutableGrid_Spec MutableGrid_Proofs.
Local Open Scope R_scope.

(** C07.  One assignment. *)
Theorem mutable_grid_assignment : forall (g g' : grid RN) (s : setter RN),
  regular g -> exact_setter g s -> assign RN g s = Ok g' ->
  regular g' /\ ndim RN g' = ndim RN g /\ multidimensional RN g' = multidimensional RN g /\
  (center_at_index RN g' = center_at_index RN g) /\
  assigned (ndim RN g) (center_at_index RN g) (view_of g) s (view_of g').
Proof. exact (fun g g' s => assign_ok g s g'). Qed.
Print Assumptions mutable_grid_assignment.
(** Any history of assignments. *)
Theorem mutable_grid_history : forall (l : list (setter RN)) (g g' : grid RN),
  regular g -> exact_history g l -> assign_all RN g l = Ok g' ->
  regular g' /\ ndim RN g' = ndim RN g /\ multidimensional RN g' = multidimensional RN g /\
  center_at_index RN g' = center_at_index RN g /\
  assigned_all (ndim RN g) (center_at_index RN g) (view_of g) l (view_of g').
Proof. exact history_ok. Qed.
Print Assumptions mutable_grid_history.
Theorem mutable_grid_equals_immutable : forall (g g' : grid RN) (l : list (setter RN)),
  regular g -> exact_history g l -> assign_all RN g l = Ok g' ->
  exists h, immutable RN g' = Ok h /\ same_grid h g'.
Proof. exact (fun g g' l => history_immutable g l g'). Qed.
Print Assumptions mutable_grid_equals_immutable.
(** The coordinate reported as [first] is the one in the specification. *)
Theorem mutable_grid_first : forall (g : grid RN) (i : nat),
  first_of (center_at_index RN g) (view_of g) i = first RN g i.
Proof. exact first_of_first. Qed.
Print Assumptions mutable_grid_first.
Example mutable_history_ex : exists g g', regular g /\
  let l := [SetShape RN (IVector [5; 6]%Z); SetFirst RN (AScalar RN DFlt 1); SetCenter RN (AVector RN DFlt [/2; 3])] in
  exact_history g l /\ assign_all RN g l = Ok g'.
Proof.
  destruct example_grid as (g & E & R & N & M & _).
  assert (tag RN (step RN g) = DFlt) as T.
  { unfold construct in E. cbn in E. injection E as <-. reflexivity. }
  exists g. cbn [assign_all fold_left assign bind set_shape set_first set_center]. unfold set_shape, set_first, set_center.
  eexists. split; [exact R|]. split.
  - cbn [exact_history exact_setter]. split.
    + intros [|[|i]] x H; cbn in H; [injection H as <-; lia|injection H as <-; lia|destruct i; discriminate].
    + intros g1 E1. unfold assign, set_shape in E1. rewrite N in E1. cbn in E1. injection E1 as <-.
      split; [exact I|]. intros g2 E2. cbn in E2. injection E2 as <-. split; [|auto]. left. left. exact T.
  - unfold assign_all. cbn [fold_left assign bind]. unfold set_shape. rewrite N. cbn [to_ndim_i length Nat.eqb bind].
    unfold set_first. cbn [to_ndim bind]. unfold set_center. cbn [ndim upd_center upd_shape]. rewrite N. cbn [to_ndim length Nat.eqb bind].
    unfold dtype. cbn [ndim upd_center upd_shape]. rewrite N. cbn [Nat.eqb bind]. reflexivity.
Qed.

(** The side condition is needed: MutableGrid(4, 1) has integer type; after [g.center = 0.5] the centre is 0. *)
Theorem mutable_grid_center_truncated_refuted :
  exists g g', mutable_construct QN (G (Some (z 4)) (Some (z 1)) None None None None false true) = Ok g /\
    set_center QN g (q (1 # 2)) = Ok g' /\ this (at_ QN (center QN g') 0%nat) = 0%Q.
Proof. exact center_truncated. Qed.
Print Assumptions mutable_grid_center_truncated_refuted.

(** C08 is violated: after [g += t], [g -= t] and [g *= a] the name is bound to None ... *)
Theorem inplace_arithmetic_refuted : forall (g g' : grid RN) (o : operand RN) (v : py_value RN),
  iadd RN g o = Ok (g', v) \/ isub RN g o = Ok (g', v) \/ imul RN g o = Ok (g', v) -> v = PNone RN.
Proof. exact (fun g g' o v => inplace_rebinds_none g o g' v). Qed.
Print Assumptions inplace_arithmetic_refuted.
(** ... and [g /= a] binds it to a new immutable grid and leaves the mutable grid as it was. *)
Theorem inplace_division_refuted : forall (g g' : grid RN) (o : operand RN) (v : py_value RN),
  itruediv RN g o = Ok (g', v) -> g' = g /\ exists h, v = PGrid RN h /\ div RN g o = Ok h.
Proof. exact (fun g g' o v => itruediv_immutable g o g' v). Qed.
Print Assumptions inplace_division_refuted.
(** The object itself, seen through another reference, is updated when the operand does not need a wider dtype. *)
Theorem inplace_add_object_partial : forall (g : grid RN) (o : operand RN),
  regular g -> ndim RN g <> 0%nat -> operand_fits g o -> (tag RN (center RN g) = DInt -> operand_tag o = DInt) ->
  exists g', iadd RN g o = Ok (g', PNone RN) /\ regular g' /\ same_layout g' g /\
    forall t : nat -> R, (forall i, (i < ndim RN g)%nat -> operand_value o i (t i)) -> coordinatewise g g' (fun i x => x + t i).
Proof. exact iadd_object. Qed.
Print Assumptions inplace_add_object_partial.
Theorem inplace_sub_object_partial : forall (g : grid RN) (o : operand RN),
  regular g -> ndim RN g <> 0%nat -> operand_fits g o -> (tag RN (center RN g) = DInt -> operand_tag o = DInt) ->
  exists g', isub RN g o = Ok (g', PNone RN) /\ regular g' /\ same_layout g' g /\
    forall t : nat -> R, (forall i, (i < ndim RN g)%nat -> operand_value o i (t i)) -> coordinatewise g g' (fun i x => x - t i).
Proof. exact isub_object. Qed.
Print Assumptions inplace_sub_object_partial.
Theorem inplace_mul_object_partial : forall (g : grid RN) (o : operand RN),
  regular g -> ndim RN g <> 0%nat -> operand_fits g o ->
  (tag RN (step RN g) = DInt \/ tag RN (center RN g) = DInt -> operand_tag o = DInt) ->
  exists g', imul RN g o = Ok (g', PNone RN) /\ regular g' /\ same_layout g' g /\
    forall t : nat -> R, (forall i, (i < ndim RN g)%nat -> operand_value o i (t i)) -> coordinatewise g g' (fun i x => t i * x).
Proof. exact imul_object. Qed.
Print Assumptions inplace_mul_object_partial.
Example inplace_ex : exists g, regular g /\ ndim RN g <> 0%nat /\ operand_fits g (OScalar RN DInt 3) /\
  (tag RN (center RN g) = DInt -> operand_tag (OScalar RN DInt 3) = DInt).
Proof. destruct example_grid as (g & _ & R & N & _). exists g. rewrite N. cbn. auto. Qed.
