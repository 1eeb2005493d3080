(** Comparison of grids in double precision: the sign of zero. *)
From Coq Require Import List Arith ZArith Bool.
From Flocq Require Import IEEE754.BinarySingleNaN.
Require Import Verif.Base Verif.Num Verif.Grid_Model Verif.Float_Model Verif.Equal_Model.
Import ListNotations.

(** A grid of three points with step 1.0 and centre x. *)
Definition around (x : BN) : grid BN :=
  Build_grid BN 1 (fun _ => 3%Z) (Build_vec BN DFlt (fun _ => nofZ BN 1)) (Build_vec BN DFlt (fun _ => x)) (fun _ => false) (fun _ => true) (fun _ => true) true false.
(** 0.0 * (-1) *)
Definition minus_zero : BN := nmul BN (nofZ BN 0) (nofZ BN (-1)).
Lemma zero_value : (nofZ BN 0 : b64) = B754_zero false.
Proof. reflexivity. Qed.
Lemma minus_zero_value : (minus_zero : b64) = B754_zero true.
Proof. unfold minus_zero. cbn [nmul nofZ BN]. vm_compute. reflexivity. Qed.
Lemma one_equal : neqb BN (nofZ BN 1) (nofZ BN 1) = true.
Proof. vm_compute. reflexivity. Qed.
Lemma zeros_equal : neqb BN minus_zero (nofZ BN 0) = true.
Proof. cbn [neqb BN]. rewrite minus_zero_value, zero_value. reflexivity. Qed.
Lemma zeros_compare : equal BN (Build_object BN false (around minus_zero)) (Build_object BN false (around (nofZ BN 0))) = Ok true.
Proof.
  unfold equal, step_size, grid_dtype, around. cbn [is_mutable state ndim shape step center short_step tag at_ flat center_at_index origin_at_center all_equal Nat.eqb seq forallb Bool.eqb also bind Z.eqb Pos.eqb].
  rewrite one_equal, zeros_equal. reflexivity.
Qed.
Lemma zeros_text : repr BN (Build_object BN false (around minus_zero)) <> repr BN (Build_object BN false (around (nofZ BN 0))).
Proof.
  intros E. apply (f_equal (fun t => match snd (t_center BN t) with Many (x :: _) => (x : b64) | _ => B754_nan end)) in E. unfold repr, around, show in E. cbn [t_center snd state multidimensional center at_ map seq ndim] in E. rewrite minus_zero_value, zero_value in E. discriminate E.
Qed.
