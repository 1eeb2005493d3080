(** Theorems about grids made from ranges in double precision. *)
From Coq Require Import ZArith Reals Lia Lra List.
From Flocq Require Import Core.Core IEEE754.BinarySingleNaN.
From Verif Require Import Base Num Grid_Model Float_Model Float_Spec Float_Basics Float_Examples Ranges_Spec Ranges_Proofs.
Import ListNotations.
Local Open Scope R_scope.

(** C180. [Grid.from_ranges] recognises the order of the points of every axis, puts the center exactly where it is, and
    reproduces all the other points to within four times their deviations from an equal spacing and a small multiple of
    the rounding unit. *)
Theorem ranges_reproduced : forall (t : dt) (ranges : list (list BN)) (natural : nat -> bool) (c h d M : nat -> R),
  (1 <= length ranges)%nat ->
  (forall i, (i < length ranges)%nat ->
     moderate (M i) /\ recognisable (natural i) (nth i ranges []) (c i) (h i) (d i) (M i)) ->
  exists g, from_ranges BN t ranges = Ok g /\ ndim BN g = length ranges /\
    forall i, (i < length ranges)%nat ->
      let r := nth i ranges [] in
      shape BN g i = Z.of_nat (length r) /\ origin_at_center BN g i = natural i /\
      forall j, (j < length r)%nat ->
        finite (coordinate g i j) /\ Rabs (val (coordinate g i j) - entry r j) <= tolerance r (d i) (M i) /\
        (steps (natural i) (length r) j = 0%Z -> val (coordinate g i j) = entry r j).
Proof. exact ranges_reproduced_lemma. Qed.
Print Assumptions ranges_reproduced.

(** Two axes, with the points 3, 5, 7, 9 and 0, 1, 2, -2, -1. *)
Example ranges_hypotheses :
  let r1 := map (nofZ BN) [3; 5; 7; 9]%Z in let r2 := map (nofZ BN) [0; 1; 2; -2; -1]%Z in
  moderate 16 /\ recognisable true r1 7 2 0 16 /\ recognisable false r2 0 1 0 16.
Proof.
  intros r1 r2.
  assert (moderate 16) as Mo by (unfold moderate; change 16 with (bpow radix2 4); apply bpow_le; lia).
  refine (conj Mo (conj (conj _ (conj _ _)) (conj _ (conj _ (conj _ _))))).
  - split; cbn [r1 map length]; lia.
  - intros j Hj. cbn [r1 map length] in Hj.
    assert (j = 0 \/ j = 1 \/ j = 2 \/ j = 3)%nat as [-> | [-> | [-> | ->]]] by lia; unfold entry, item; cbn [r1 map nth length];
      (split; [apply ofZ_fin; lia|]; rewrite ofZ_eq by lia; split; [rewrite Rabs_pos_eq; lra|]);
      cbn [steps Nat.div Nat.divmod fst]; (match goal with |- Rabs ?x <= 0 => replace x with 0 by (cbn; lra) end); rewrite Rabs_R0; lra.
  - right. rewrite Rabs_pos_eq; lra.
  - split; cbn [r2 map length]; lia.
  - cbn [r2 map length]. lia.
  - intros j Hj. cbn [r2 map length] in Hj.
    assert (j = 0 \/ j = 1 \/ j = 2 \/ j = 3 \/ j = 4)%nat as [-> | [-> | [-> | [-> | ->]]]] by lia; unfold entry, item; cbn [r2 map nth length];
      (split; [apply ofZ_fin; lia|]; rewrite ofZ_eq by lia; split; [apply Rabs_le; lra|]);
      (match goal with |- Rabs ?x <= 0 => replace x with 0 by (cbn; lra) end); rewrite Rabs_R0; lra.
  - rewrite Rabs_pos_eq by lra. pose proof u_small. pose proof u_pos. lra.
Qed.

(** The points are not reproduced exactly: those of [0.1 * np.arange(4)]. *)
Definition tenths : list BN := map (fun k => nmul BN (nofZ BN k) (literal 1 10)) [0; 1; 2; 3]%Z.
Theorem ranges_exact_refuted : exists g, from_ranges BN DFlt [tenths] = Ok g /\ shape BN g 0 = 4%Z /\
  different_double (coordinate g 0 0) (item tenths 0) /\ different_double (coordinate g 0 1) (item tenths 1).
Proof.
  assert (rmap (fun g => (shape BN g 0%nat, (Beqb (coordinate g 0 0) (item tenths 0 : b64), Beqb (coordinate g 0 1) (item tenths 1 : b64))))
            (from_ranges BN DFlt [tenths]) = Ok (4%Z, (false, false))) as H by (vm_compute; reflexivity).
  destruct (rmap_ok _ _ _ H) as (g & E & V). injection V as V1 V2 V3. exists g. auto.
Qed.
Print Assumptions ranges_exact_refuted.

(** Two finite numbers so far apart that their difference overflows give a grid of NaNs. *)
Definition far_apart : list BN := map (nofZ BN) [- 3 * 2 ^ 1022; 3 * 2 ^ 1022]%Z.
Theorem ranges_overflow_refuted : (finite (item far_apart 0) /\ finite (item far_apart 1)) /\
  exists g, from_ranges BN DFlt [far_apart] = Ok g /\ shape BN g 0 = 2%Z /\ ~ finite (coordinate g 0 0) /\ ~ finite (coordinate g 0 1).
Proof.
  split; [split; vm_compute; reflexivity|].
  assert (rmap (fun g => (shape BN g 0%nat, (is_finite (coordinate g 0 0 : b64), is_finite (coordinate g 0 1 : b64))))
            (from_ranges BN DFlt [far_apart]) = Ok (2%Z, (false, false))) as H by (vm_compute; reflexivity).
  destruct (rmap_ok _ _ _ H) as (g & E & V). injection V as V1 V2 V3. exists g.
  split; [exact E|]. split; [exact V1|]. unfold finite. split; congruence.
Qed.
Print Assumptions ranges_overflow_refuted.
