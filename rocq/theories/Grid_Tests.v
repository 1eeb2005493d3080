(** The expectations of /repo/python/tests/test_grid.py replayed on the rational instance of the model.
    These are tests of the model's fidelity, not proofs of properties. *)
From Coq Require Import QArith Qcanon.
From Verif Require Import Base Num Grid_Model.

Definition z (i : Z) : arg QN := AScalar QN DInt (nofZ QN i).
Definition q (x : Q) : arg QN := AScalar QN DFlt (Q2Qc x).
Definition zs (l : list Z) : arg QN := AVector QN DInt (map (nofZ QN) l).
Definition qs (l : list Q) : arg QN := AVector QN DFlt (map Q2Qc l).

(** [Grid(shape, step, extent=, first=, center=, last=)] *)
Definition G sh st ex fi ce la incl cai : args QN :=
  {| a_shape := sh; a_step := st; a_extent := ex; a_first := fi; a_center := ce; a_last := la;
     a_include_last := BScalar incl; a_ndim := None; a_flat := BScalar false; a_origin_at_center := BScalar true;
     a_center_at_index := BScalar cai |}.
Notation "! x" := (Some x) (at level 9).
Notation "·" := None.

Definition coords (axis : nat) (g : result (grid QN)) : result (list Q) :=
  rmap (fun g => map this (axis_range QN g axis)) g.
Definition zq (l : list Z) : result (list Q) := Ok (map inject_Z l).
Definition C a := coords 0 (construct QN a).
Local Open Scope Z_scope.

(* test_grid_no_shape *)
Example t1 : C (G · !(z 1) !(z 10) · · · false true) = zq [-5;-4;-3;-2;-1;0;1;2;3;4]. Proof. vm_compute. reflexivity. Qed.
Example t2 : C (G · !(z 2) !(z 10) · · · false true) = zq [-4;-2;0;2;4]. Proof. vm_compute. reflexivity. Qed.
Example t3 : C (G · !(z 2) !(z 11) · · · false true) = zq [-6;-4;-2;0;2;4]. Proof. vm_compute. reflexivity. Qed.
Example t4 : C (G · !(z 3) !(z 10) · · · false true) = zq [-6;-3;0;3]. Proof. vm_compute. reflexivity. Qed.
Example t5 : C (G · !(z (-3)) !(z 11) · · · false true) = zq [6;3;0;-3]. Proof. vm_compute. reflexivity. Qed.
Example t6 : C (G · !(z 1) · !(z (-5)) · !(z 5) false true) = zq [-5;-4;-3;-2;-1;0;1;2;3;4]. Proof. vm_compute. reflexivity. Qed.
Example t7 : C (G · !(z 1) · !(z (-5)) !(z 0) · false true) = zq [-5;-4;-3;-2;-1;0;1;2;3;4]. Proof. vm_compute. reflexivity. Qed.
Example t8 : C (G · !(z 1) · · !(z 0) !(z 5) false true) = zq [-5;-4;-3;-2;-1;0;1;2;3;4]. Proof. vm_compute. reflexivity. Qed.
Example t9 : C (G · !(z 1) · !(z (-2)) · !(z 3) false true) = zq [-2;-1;0;1;2]. Proof. vm_compute. reflexivity. Qed.
Example t10 : C (G · !(z 1) · !(q (-3#2)) !(q (1#2)) · false true) = Ok [-3#2; -1#2; 1#2; 3#2]%Q. Proof. vm_compute. reflexivity. Qed.
(* test_grid_step_1 *)
Example t11 : C (G !(z 1) · · · · · false true) = zq [0]. Proof. vm_compute. reflexivity. Qed.
Example t12 : C (G !(z 4) · · · · · false true) = zq [-2;-1;0;1]. Proof. vm_compute. reflexivity. Qed.
Example t13 : C (G !(z 5) · · · · · false true) = zq [-2;-1;0;1;2]. Proof. vm_compute. reflexivity. Qed.
Example t14 : C (G !(z 4) · · · !(z 2) · false true) = zq [0;1;2;3]. Proof. vm_compute. reflexivity. Qed.
(* test_extent *)
Example t15 : rmap (fun g => (map (shape QN g) [0;1]%nat, map (fun i => this (at_ QN (step QN g) i)) [0;1]%nat))
   (construct QN (G · !(q (1#8)) !(zs [32;16]) · · · false true)) = Ok ([256;128], [1#8;1#8]%Q). Proof. vm_compute. reflexivity. Qed.
Example t16 : rmap (fun g => (map (shape QN g) [0;1]%nat, map (fun i => this (at_ QN (step QN g) i)) [0;1]%nat))
   (construct QN (G · · !(zs [32;16]) · · · false true)) = Ok ([1;1], [32#1;16#1]%Q). Proof. vm_compute. reflexivity. Qed.
(* test_grid_first, _last, _last_included *)
Example t17 : C (G !(z 4) · · !(z (-2)) · · false true) = zq [-2;-1;0;1]. Proof. vm_compute. reflexivity. Qed.
Example t18 : C (G !(z 5) · · · · !(z 3) false true) = zq [-2;-1;0;1;2]. Proof. vm_compute. reflexivity. Qed.
Example t19 : C (G !(z 1) · · · · !(z 5) true true) = zq [5]. Proof. vm_compute. reflexivity. Qed.
Example t20 : C (G !(z 4) · · · · !(z 3) true true) = zq [0;1;2;3]. Proof. vm_compute. reflexivity. Qed.
Example t21 : C (G !(z 1) · · · · !(z 1) false true) = zq [0]. Proof. vm_compute. reflexivity. Qed.
(* test_grid_first_last *)
Example t22 : C (G !(z 1) · · !(z 5) · !(z 10) false true) = zq [5]. Proof. vm_compute. reflexivity. Qed.
Example t23 : C (G !(z 5) · · !(z 5) · !(z 10) false true) = zq [5;6;7;8;9]. Proof. vm_compute. reflexivity. Qed.
Example t24 : C (G !(z 2) · · !(z 0) · !(z 10) true true) = zq [0;10]. Proof. vm_compute. reflexivity. Qed.
Example t25 : C (G !(z 6) · · !(z 5) · !(z 10) true true) = zq [5;6;7;8;9;10]. Proof. vm_compute. reflexivity. Qed.
(* test_grid_first_last_conflict *)
Example t26 : C (G !(z 1) · · !(z 0) · !(z 1) true true) = Err ValueError. Proof. vm_compute. reflexivity. Qed.
Example t27 : C (G !(z 1) · · !(z 5) · !(z 10) true true) = Err ValueError. Proof. vm_compute. reflexivity. Qed.
(* test_center_at_index *)
Example t28 : C (G !(z 4) · · · !(z 0) · false false) = Ok [-3#2;-1#2;1#2;3#2]%Q. Proof. vm_compute. reflexivity. Qed.
Example t29 : C (G !(z 4) !(z 2) · · !(z 0) · false false) = zq [-3;-1;1;3]. Proof. vm_compute. reflexivity. Qed.
Example t30 : C (G !(z 4) !(q (1#2)) · · · · false false) = Ok [-3#4;-1#4;1#4;3#4]%Q. Proof. vm_compute. reflexivity. Qed.
Example t31 : C (G !(z 4) · · !(z 0) · · false false) = zq [0;1;2;3]. Proof. vm_compute. reflexivity. Qed.
Example t32 : C (G !(z 5) · · !(z 0) · · false false) = zq [0;1;2;3;4]. Proof. vm_compute. reflexivity. Qed.
Example t33 : rmap (fun g => this (first QN g 0)) (construct QN (G !(z 4) · · !(z (-2)) · · false false)) = Ok (-2#1)%Q. Proof. vm_compute. reflexivity. Qed.
(* test_grid_dtype *)
Example t34 : (let g := construct QN (G !(zs [2;3]) · · !(zs [4;5]) · · false true) in
   (coords 0 g, coords 1 g, rmap (fun g => tag QN (step QN g)) g)) = (zq [4;5], zq [5;6;7], Ok DInt). Proof. vm_compute. reflexivity. Qed.
(* test_grid_frequency_single / multi *)
Example t35 : coords 0 (bind (construct QN (G !(z 5) !(z 2) · · · · false true)) (f_grid QN)) = Ok [0#1;1#10;1#5;-1#5;-1#10]%Q. Proof. vm_compute. reflexivity. Qed.
Example t36 : coords 0 (bind (bind (construct QN (G !(z 5) · · · · · false true)) (f_grid QN)) (as_origin_at_center QN)) = Ok [-2#5;-1#5;0#1;1#5;2#5]%Q. Proof. vm_compute. reflexivity. Qed.
Example t37 : coords 1 (bind (construct QN (G !(zs [5;2]) · · · · · false true)) (f_grid QN)) = Ok [0#1;-1#2]%Q. Proof. vm_compute. reflexivity. Qed.
(* test_singleton *)
Example t38 : (let g := construct QN (G !(zs [3;1]) !(qs [1#2;0]%Q) · !(zs [1;4]) · · false true) in (coords 0 g, coords 1 g)) = (Ok [1#1;3#2;2#1]%Q, zq [4]). Proof. vm_compute. reflexivity. Qed.
(* test_from_ranges *)
Example t39 : (let g := from_ranges QN DInt [map (nofZ QN) [1;2;3]; map (nofZ QN) [4]] in (coords 0 g, coords 1 g)) = (zq [1;2;3], zq [4]). Proof. vm_compute. reflexivity. Qed.
Example t40 : (let g := from_ranges QN DFlt [map Q2Qc [0;1#3;-2#3;-1#3]%Q] in
   (coords 0 g, rmap (fun g => (origin_at_center QN g 0%nat, this (at_ QN (step QN g) 0%nat), this (first QN g 0%nat), shape QN g 0%nat)) g))
   = (Ok [0#1;1#3;-2#3;-1#3]%Q, Ok (false, (1#3)%Q, (-2#3)%Q, 4)). Proof. vm_compute. reflexivity. Qed.
Example t41 : coords 0 (from_ranges QN DFlt [map Q2Qc [0;1#3;-1#3]%Q]) = Ok [0#1;1#3;-1#3]%Q. Proof. vm_compute. reflexivity. Qed.
(* test_arithmetic_neg, _div *)
Example t42 : coords 0 (bind (construct QN (G !(z 10) !(q (1#2)) · !(z 0) · · false true)) (neg QN)) = C (G !(z 10) !(q (-1#2)) · !(z 0) · · false true). Proof. vm_compute. reflexivity. Qed.
Example t43 : coords 0 (bind (construct QN (G !(z 4) · · · · · false true)) (fun g => div QN g (OScalar QN DInt (nofZ QN 2)))) = Ok [-1#1;-1#2;0#1;1#2]%Q. Proof. vm_compute. reflexivity. Qed.
