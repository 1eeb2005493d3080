(** C09: utils/dim adds and removes singleton axes without touching the data. *)
From Verif Require Import Base Dim_Model Dim_Proofs.
Local Open Scope Z_scope.

(** Whatever is requested, a returned view has the same elements in the same order and the same size. *)
Theorem dim_add_keeps_elements : forall (A : Type) (arr b : ndarray A) (left right nd : option Z),
  add arr left right nd = Ok b ->
  elements b = elements arr /\ prodn (shape b) = prodn (shape arr).
Proof. exact @add_elements. Qed.
Print Assumptions dim_add_keeps_elements.
Example dim_add_keeps_elements_ex :
  add (Build_ndarray [2; 3]%nat [1;2;3;4;5;6]) (Some 1) None (Some 5)
  = Ok (Build_ndarray [1; 2; 3; 1; 1]%nat [1;2;3;4;5;6]).
Proof. reflexivity. Qed.

(** Adding [n] axes on the left and [m] on the right gives exactly that shape. *)
Theorem dim_add_shape : forall (A : Type) (arr : ndarray A) (n m : nat),
  add arr (Some (Z.of_nat n)) (Some (Z.of_nat m)) None
  = Ok (Build_ndarray (repeat 1%nat n ++ shape arr ++ repeat 1%nat m) (elements arr)).
Proof. exact @add_nonneg. Qed.
Print Assumptions dim_add_shape.

(** Removing [n] axes on the left of a non-empty array: succeeds iff they are singletons, else ValueError. *)
Theorem dim_remove_left : forall (A : Type) (arr : ndarray A) (n : nat),
  (0 < n <= length (shape arr))%nat -> (0 < prodn (shape arr))%nat ->
  (firstn n (shape arr) = repeat 1%nat n /\
   add arr (Some (- Z.of_nat n)) None None = Ok (Build_ndarray (skipn n (shape arr)) (elements arr)))
  \/ (firstn n (shape arr) <> repeat 1%nat n /\ add arr (Some (- Z.of_nat n)) None None = Err ValueError).
Proof. exact @add_remove_left_spec. Qed.
Print Assumptions dim_remove_left.
Example dim_remove_left_ex :
  let arr := Build_ndarray [1; 1; 3]%nat [7;8;9] in
  (0 < 2 <= length (shape arr))%nat /\ (0 < prodn (shape arr))%nat.
Proof. cbn. lia. Qed.

(** On empty arrays the documented failure does not occur. *)
Theorem dim_remove_left_empty_refuted : exists (arr : ndarray Z) b,
  firstn 1 (shape arr) <> repeat 1%nat 1 /\ length (elements arr) = prodn (shape arr) /\
  add arr (Some (-1)) None None = Ok b.
Proof. exact add_remove_left_empty. Qed.
Print Assumptions dim_remove_left_empty_refuted.

(** Removing axes on the right: removing one of the two trailing singletons removes both. *)
Theorem dim_remove_right_refuted : exists (arr : ndarray Z) b,
  shape arr = [3; 1; 1]%nat /\ length (elements arr) = prodn (shape arr) /\
  add arr None (Some (-1)) None = Ok b /\ shape b = [3]%nat /\ shape b <> [3; 1]%nat.
Proof. exact add_remove_right_wrong. Qed.
Print Assumptions dim_remove_right_refuted.

(** ... and the removal of a genuine trailing singleton is refused for every array with more axes whose second
    axis has more than one element. *)
Theorem dim_remove_right_raises : forall (A : Type) (arr : ndarray A) (a b : nat) (s : list nat),
  shape arr = a :: b :: s ++ [1%nat] -> (0 < prodn (shape arr))%nat -> (1 < b)%nat ->
  add arr None (Some (-1)) None = Err ValueError.
Proof. exact @add_remove_right_raises. Qed.
Print Assumptions dim_remove_right_raises.
Example dim_remove_right_raises_ex :
  let arr := Build_ndarray [2; 2; 1]%nat [1;2;3;4] in
  shape arr = 2%nat :: 2%nat :: [] ++ [1%nat] /\ (0 < prodn (shape arr))%nat /\ (1 < 2)%nat.
Proof. cbn. repeat split; lia. Qed.

(** It is only right when exactly half of the axes are removed, as in the unit test. *)
Theorem dim_remove_right_partial : forall (A : Type) (arr : ndarray A) (n : nat),
  (0 < n)%nat -> length (shape arr) = (2 * n)%nat -> skipn n (shape arr) = repeat 1%nat n ->
  add arr None (Some (- Z.of_nat n)) None
  = Ok (Build_ndarray (firstn (length (shape arr) - n) (shape arr)) (elements arr)).
Proof. exact @add_remove_right_half. Qed.
Print Assumptions dim_remove_right_partial.
Example dim_remove_right_partial_ex :
  let arr := Build_ndarray [3; 1]%nat [1;2;3] in
  (0 < 1)%nat /\ length (shape arr) = (2 * 1)%nat /\ skipn 1 (shape arr) = repeat 1%nat 1.
Proof. cbn. repeat split; lia. Qed.

(** [left_to] and [right_to] pad to the requested number of axes. *)
Theorem dim_left_to : forall (A : Type) (arr : ndarray A) (n : nat),
  (length (shape arr) <= n)%nat ->
  left_to arr (Z.of_nat n) =
  Ok (Build_ndarray (repeat 1%nat (n - length (shape arr)) ++ shape arr) (elements arr)).
Proof. exact @left_to_spec. Qed.
Print Assumptions dim_left_to.

Theorem dim_right_to : forall (A : Type) (arr : ndarray A) (n : nat),
  (length (shape arr) <= n)%nat ->
  right_to arr (Z.of_nat n) =
  Ok (Build_ndarray (shape arr ++ repeat 1%nat (n - length (shape arr))) (elements arr)).
Proof. exact @right_to_spec. Qed.
Print Assumptions dim_right_to.
Example dim_right_to_ex : (length (shape (Build_ndarray [2; 1]%nat [1;2])) <= 4)%nat.
Proof. cbn. lia. Qed.

(** [to_axis] orients a vector along any valid (also negative) axis. *)
Theorem dim_to_axis_vector : forall (A : Type) (v : list A) (len : nat) (axis : Z) (n : nat),
  (0 < n)%nat -> - Z.of_nat n <= axis < Z.of_nat n ->
  let a := Z.to_nat (axis mod Z.of_nat n) in
  to_axis (Build_ndarray [len] v) axis (Some (Z.of_nat n))
  = Ok (Build_ndarray (repeat 1%nat a ++ [len] ++ repeat 1%nat (n - 1 - a)) v).
Proof. exact @to_axis_vector. Qed.
Print Assumptions dim_to_axis_vector.
Example dim_to_axis_vector_ex :
  (0 < 4)%nat /\ - Z.of_nat 4 <= -2 < Z.of_nat 4 /\ Z.to_nat ((-2) mod 4) = 2%nat.
Proof. cbn. repeat split; lia. Qed.

(** [to_axis] for arrays of any rank and a non-negative axis with enough room. *)
Theorem dim_to_axis_nonneg : forall (A : Type) (arr : ndarray A) (a n : nat),
  (a + length (shape arr) <= n)%nat -> (a < n)%nat ->
  to_axis arr (Z.of_nat a) (Some (Z.of_nat n))
  = Ok (Build_ndarray (repeat 1%nat a ++ shape arr ++ repeat 1%nat (n - a - length (shape arr))) (elements arr)).
Proof. exact @to_axis_nonneg. Qed.
Print Assumptions dim_to_axis_nonneg.
Example dim_to_axis_nonneg_ex :
  (1 + length (shape (Build_ndarray [2; 2]%nat [1;2;3;4])) <= 4)%nat /\ (1 < 4)%nat.
Proof. cbn. lia. Qed.

(** A negative axis does not work for arrays of rank two: the last axis of a matrix cannot be mapped to axis -1. *)
Theorem dim_to_axis_negative_refuted : exists arr : ndarray Z,
  shape arr = [2; 2]%nat /\ length (elements arr) = prodn (shape arr) /\
  to_axis arr (-1) None = Err ValueError.
Proof. exact to_axis_negative_wrong. Qed.
Print Assumptions dim_to_axis_negative_refuted.

(** C09: to_axis of a vector with the default number of dimensions: a vector along that axis, counted from the left or
    from the right, with no more axes than needed. *)
Theorem dim_to_axis_default : forall (A : Type) (v : list A) (len : nat) (axis : Z),
  to_axis (Build_ndarray [len] v) axis None
  = Ok (Build_ndarray (if 0 <=? axis then repeat 1%nat (Z.to_nat axis) ++ [len]
                       else [len] ++ repeat 1%nat (Z.to_nat (- axis - 1))) v).
Proof. exact @to_axis_default. Qed.
Print Assumptions dim_to_axis_default.
Example dim_to_axis_default_ex : to_axis (Build_ndarray [2]%nat [5; 6]) (-3) None = Ok (Build_ndarray [2; 1; 1]%nat [5; 6]).
Proof. reflexivity. Qed.
