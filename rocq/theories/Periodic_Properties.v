(** Periodic boundaries: C190. *)
From Coq Require Import ZArith Reals Lia Lra List Bool.
From Flocq Require Import Core.Core IEEE754.BinarySingleNaN.
From Verif Require Import Base Num Grid_Model Grid_Spec Bound_Model Float_Model Float_Spec Bound64_Spec Bound64_Properties Periodic_Proofs Periodic64_Proofs.
From Verif Require Bound_Spec Bound_Properties.
Local Notation upright := Bound_Spec.upright.
Local Notation inside := Bound_Spec.inside.
Local Open Scope R_scope.

(** All samples of a grid with increasing coordinates are between periodic boundaries, and none are beyond, *)
Theorem periodic_bound_everywhere_partial : forall g : grid RN, upright g -> exists b within outside,
  periodic_bound RN g = Ok b /\ between RN b = Ok within /\ beyond RN b = Ok outside /\ forall p, inside g p -> within p = true /\ outside p = false.
Proof. exact periodic_everywhere. Qed.
Print Assumptions periodic_bound_everywhere_partial.
(** and that in double precision too. *)
Theorem float_periodic_bound_everywhere : forall g : grid BN, upright64 g -> exists b within outside,
  periodic_bound BN g = Ok b /\ between BN b = Ok within /\ beyond BN b = Ok outside /\ forall p, inside64 g p -> within p = true /\ outside p = false.
Proof. exact periodic_everywhere64. Qed.
Print Assumptions float_periodic_bound_everywhere.
(** No sample is between periodic boundaries when the coordinates along an axis decrease, *)
Theorem periodic_bound_descending_refuted : forall (g : grid RN) (a : nat), regular g -> multidimensional RN g = true -> (a < ndim RN g)%nat ->
  step_of g a < 0 -> origin_at_center RN g a = true -> (2 <= points g a)%nat ->
  exists b within, periodic_bound RN g = Ok b /\ between RN b = Ok within /\ forall p, inside g p -> within p = false.
Proof. exact periodic_descending. Qed.
Print Assumptions periodic_bound_descending_refuted.
(** or when its centre is at the first index. *)
Theorem periodic_bound_rolled_refuted : forall (g : grid RN) (a : nat), regular g -> multidimensional RN g = true -> (a < ndim RN g)%nat ->
  0 < step_of g a -> origin_at_center RN g a = false -> (2 <= points g a)%nat ->
  exists b within, periodic_bound RN g = Ok b /\ between RN b = Ok within /\ forall p, inside g p -> within p = false.
Proof. exact periodic_rolled. Qed.
Print Assumptions periodic_bound_rolled_refuted.

(** ** Concrete cases *)
(** The hypotheses are met by the grids of linear_bound_ex and ten_points_upright. *)
Example periodic_grids : (exists g, upright g /\ ndim RN g = 2%nat /\ points g 0 = 3%nat /\ points g 1 = 8%nat) /\ (exists g, construct BN ten_points = Ok g /\ upright64 g).
Proof.
  split.
  - destruct Bound_Properties.linear_bound_ex as (g & b & U & N & P0 & P1 & _). exists g. auto.
  - destruct ten_points_upright as (g & b & E & U & _). exists g. auto.
Qed.
Definition strip (d : R) (centred : bool) : grid RN :=
  Build_grid RN 1 (fun _ => 4%Z) (Build_vec RN DFlt (fun _ => d)) (Build_vec RN DFlt (fun _ => 0)) (fun _ => false) (fun _ => centred) (fun _ => true) true false.
Example strips : let g := strip (-1) true in let h := strip 1 false in
  regular g /\ step_of g 0 < 0 /\ origin_at_center RN g 0%nat = true /\ points g 0 = 4%nat /\ inside g (fun _ => 3%nat) /\
  regular h /\ 0 < step_of h 0 /\ origin_at_center RN h 0%nat = false /\ points h 0 = 4%nat /\ inside h (fun _ => 3%nat).
Proof.
  cbv zeta. unfold regular, step_of, points, inside, strip. cbn. repeat match goal with |- _ /\ _ => split end; try reflexivity; try lra; try discriminate; intros; lia || (unfold Pos.to_nat; cbn; lia) || (cbn; lia).
Qed.
