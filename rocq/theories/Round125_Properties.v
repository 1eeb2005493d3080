(** C39 and C61: round125. *)
From Coq Require Import Reals Lra Lia ZArith.
From Flocq Require Import Core.Raux.
From Verif Require Import Round125_Model Round125_Proofs.
Local Open Scope R_scope.

(** C39.  Zero stays zero, every other value becomes 1, 2 or 5 times a power of ten with the same sign. *)
Theorem round125_of_zero : round125 0 = 0.
Proof. exact round125_zero. Qed.
Print Assumptions round125_of_zero.
Theorem round125_values : forall v, v <> 0 -> exists d n, (d = 1 \/ d = 2 \/ d = 5) /\
  round125 v = (if Rlt_dec v 0 then -1 else 1) * d * powerRZ 10 n.
Proof. exact round125_form. Qed.
Print Assumptions round125_values.
Theorem round125_symmetric : forall v, round125 (- v) = - round125 v.
Proof. exact round125_odd. Qed.
Print Assumptions round125_symmetric.
Theorem round125_increasing : forall v w, v <= w -> round125 v <= round125 w.
Proof. exact round125_monotone. Qed.
Print Assumptions round125_increasing.
Theorem round125_stable : forall v, round125 (round125 v) = round125 v.
Proof. exact round125_idempotent. Qed.
Print Assumptions round125_stable.
(** Never more than a factor 1.6 away. *)
Theorem round125_within_factor : forall v, / 10 ^ 10 <= Rabs v ->
  Rabs v <= 8 / 5 * Rabs (round125 v) /\ Rabs (round125 v) <= 8 / 5 * Rabs v.
Proof. exact round125_near. Qed.
Print Assumptions round125_within_factor.

Example round125_300 : / 10 ^ 10 <= Rabs 300 /\ 300 <> 0.
Proof. split; [|lra]. rewrite Rabs_pos_eq by lra. assert (0 < 10 ^ 10) by lra. apply Rmult_le_reg_r with (10 ^ 10); [lra|]. rewrite Rinv_l by lra. lra. Qed.

(** C61.  3.3 becomes 5, although 2 is nearer. *)
Theorem round125_nearest_refuted : round125 (33 / 10) = 5 /\ Rabs (33 / 10 - 2) < Rabs (33 / 10 - 5) /\ round125 2 = 2.
Proof. exact round125_not_nearest. Qed.
Print Assumptions round125_nearest_refuted.
(** A non-zero value below 1e-10 is replaced by 1e-10. *)
Theorem round125_tiny_refuted : forall v, 0 < v < / 10 ^ 10 -> round125 v = / 10 ^ 10.
Proof. exact round125_tiny. Qed.
Print Assumptions round125_tiny_refuted.
