(** Arithmetic of grids with operands of any size: C203. *)
From Coq Require Import Reals Lra Lia QArith Qcanon.
From Verif Require Import Base Num Grid_Model Grid_Spec Grid_Ops Grid_Properties Grid_Tests Bound_Spec Bound_Properties Operand_Model Operand_Proofs.
Local Open Scope R_scope.

(** A grid with two or more axes can be shifted and scaled by a number, by a vector of one element or by one element per axis, and by no other operand: those raise a ValueError.
    Grids of a single axis also accept operands that fit (next theorem for the others). *)
Theorem operands_partial : forall (g : grid RN) (o : operand RN), regular g ->
  (operand_fits g o -> exists h h', add_any RN g o = Ok h /\ mul_any RN g o = Ok h' /\ same_layout h g /\ same_layout h' g /\
    forall t : nat -> R, (forall i, (i < ndim RN g)%nat -> operand_value o i (t i)) -> coordinatewise g h (fun i x => x + t i) /\ coordinatewise g h' (fun i x => t i * x)) /\
  ((2 <= ndim RN g)%nat -> ~ operand_fits g o -> add_any RN g o = Err ValueError /\ mul_any RN g o = Err ValueError).
Proof.
  intros g o Rg. split; [|exact (any_rejects g o Rg)]. intros F. destruct (grid_add g o Rg F) as (h & A & _ & L & C). destruct (grid_mul g o Rg F) as (h' & A' & _ & L' & C'). exists h, h'.
  rewrite (add_any_fits g o Rg F), (mul_any_fits g o Rg F). repeat (split; [assumption|]). intros t T. split; [exact (proj1 (C t T))|exact (proj1 (C' t T))].
Qed.
Print Assumptions operands_partial.
(** With a single axis, elements that do not belong to any axis are ignored: adding (1, 2) adds 1. *)
Theorem operands_refuted : exists (g : grid RN) (o : operand RN) (h : grid RN), regular g /\ ~ operand_fits g o /\ operand_value o 1 2 /\ add_any RN g o = Ok h /\ same_layout h g /\ coordinatewise g h (fun _ x => x + 1).
Proof.
  set (v := fun x : R => Build_vec RN DFlt (fun _ => x)). set (no := fun _ : nat => false).
  set (g := Build_grid RN 1 (fun _ => 4%Z) (v 1) (v 0) no (fun _ => true) (fun _ => true) false false).
  assert (regular g) as Rg by (split; [reflexivity|split; [reflexivity|intros i _; cbn; lia]]). exists g, (OSequence RN DFlt [1; 2]).
  destruct (grid_add g (OScalar RN DFlt 1) Rg I) as (h & A & _ & L & C). exists h. split; [exact Rg|]. split; [cbn; lia|]. split; [reflexivity|]. split; [|split; [exact L|exact (proj1 (C (fun _ => 1) ltac:(intros; reflexivity)))]].
  rewrite <- A. exact (proj1 (any_first g (OSequence RN DFlt [1; 2]) 1 [2] Rg eq_refl eq_refl)).
Qed.
Print Assumptions operands_refuted.

(** Any grid of a single axis that is made from sequences gets an axis for each element of what it is added to or multiplied with, with as coordinates those of its axis plus, or times, the element. *)
Theorem operands_axes_refuted : forall (g : grid RN) (o : operand RN), regular g -> multidimensional RN g = true -> ndim RN g = 1%nat -> (2 <= length (elements RN o))%nat ->
  ~ operand_fits g o /\
  (exists h, add_any RN g o = Ok h /\ ndim RN h = length (elements RN o) /\ forall i, (i < length (elements RN o))%nat -> axis_range RN h i = map (fun x => x + nth i (elements RN o) 0) (axis_range RN g 0)) /\
  (exists h, mul_any RN g o = Ok h /\ ndim RN h = length (elements RN o) /\ forall i, (i < length (elements RN o))%nat -> axis_range RN h i = map (fun x => nth i (elements RN o) 0 * x) (axis_range RN g 0)).
Proof. intros g o Rg M N L. split; [|split; [exact (add_any_axes g o Rg M N L)|exact (mul_any_axes g o Rg M N L)]]. destruct o as [d x|d l|d l]; cbn in *; rewrite ?N; lia. Qed.
Print Assumptions operands_axes_refuted.

(** ** Concrete cases *)
(** Grid([4], 1) + [1, 2] has two axes, with the coordinates of each. *)
Definition shifted : result (grid QN) := do g <- construct QN (G (Some (zs [4]%Z)) (Some (zs [1]%Z)) None None None None false true); add_any QN g (OSequence QN DInt (map (nofZ QN) [1; 2]%Z)).
Example more_axes : let h := shifted in coords 0 h = Ok [-1; 0; 1; 2]%Q /\ coords 1 h = Ok [0; 1; 2; 3]%Q.
Proof. vm_compute. split; reflexivity. Qed.
(** Grids of two axes, an operand that fits and one that does not. *)
Example two_axes : exists g : grid RN, regular g /\ (2 <= ndim RN g)%nat /\ operand_fits g (OSequence RN DFlt [1; 2]) /\ ~ operand_fits g (OSequence RN DFlt [1; 2; 3]).
Proof. destruct linear_bound_ex as (g & _ & (Rg & _) & N & _). exists g. split; [exact Rg|]. cbn. rewrite N. split; [lia|]. split; [right; reflexivity|lia]. Qed.
(** A grid of one axis that operands_axes_refuted is about. *)
Example one_axis : exists g : grid RN, regular g /\ multidimensional RN g = true /\ ndim RN g = 1%nat.
Proof.
  exists (Build_grid RN 1 (fun _ => 4%Z) (Build_vec RN DFlt (fun _ => 1)) (Build_vec RN DFlt (fun _ => 0)) (fun _ => false) (fun _ => true) (fun _ => true) true false).
  split; [split; [reflexivity|split; [discriminate|intros i _; cbn; lia]]|]. split; reflexivity.
Qed.
