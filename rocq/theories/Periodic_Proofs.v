(** Proofs for periodic boundaries: C190. *)
From Coq Require Import ZArith Reals Lia Lra List Bool ZifyBool ZifyNat.
From Verif Require Import Base Num Grid_Model Grid_Spec Grid_Proofs Bound_Model Bound_Spec Bound_Proofs.
Local Open Scope R_scope.
Ltac Zify.zify_post_hook ::= Z.div_mod_to_equations.

Lemma periodic_everywhere (g : grid RN) : upright g -> exists b within outside, periodic_bound RN g = Ok b /\ between RN b = Ok within /\ beyond RN b = Ok outside /\
  forall p, inside g p -> within p = true /\ outside p = false.
Proof.
  intros U. eexists. set (b := {| b_grid := g; thickness := fun _ _ => nofZ RN 0; kappa_function := fun _ _ x => x |}). destruct (between_iff b U) as (w & E & W). exists w, (fun p => negb (w p)).
  split; [reflexivity|]. fold b. split; [exact E|]. split; [unfold beyond; rewrite E; reflexivity|]. intros p Hp. assert (w p = true) as ->; [|split; reflexivity].
  apply (W p Hp). intros a s _ _. cbn [b thickness]. rn. apply edge_distance_nonneg.
Qed.
Section Loose.
  Variable g : grid RN.
  Hypothesis (Rg : regular g) (M : multidimensional RN g = true).
  Lemma getitem_loose a : (a < ndim RN g)%nat -> getitem_axis RN g (Z.of_nat a) = Ok (axis_range RN g a).
  Proof. intros Ha. destruct Rg as (Hs & _ & _). unfold getitem_axis. rewrite M, norm_index_nat, Hs by assumption. reflexivity. Qed.
  Lemma ranges_loose m n : (m + n <= ndim RN g)%nat ->
    fold_right (fun i rest => do x <- getitem_axis RN g (Z.of_nat i); do l <- rest; Ok (x :: l)) (Ok []) (seq m n) = Ok (map (axis_range RN g) (seq m n)).
  Proof. revert m. induction n as [|n IH]; intros m H; [reflexivity|]. cbn [seq fold_right map]. rewrite getitem_loose by lia. rewrite IH by lia. reflexivity. Qed.
  Definition still : bound RN := {| b_grid := g; thickness := fun _ _ => nofZ RN 0; kappa_function := fun _ _ x => x |}.
  Lemma still_between : exists w, between RN still = Ok w /\
    forall p a, (a < ndim RN g)%nat -> w p = true -> (@nth R 0 (axis_range RN g a) 0 <= @nth R (p a) (axis_range RN g a) 0 <= @nth R (points g a - 1) (axis_range RN g a) 0)%R.
  Proof.
    unfold between. cbn [still b_grid]. rewrite ranges_loose by lia. cbn [bind]. eexists. split; [reflexivity|]. intros p a Ha H. rewrite forallb_forall in H. specialize (H a ltac:(apply in_seq; lia)).
    rewrite nth_map_seq in H by assumption. unfold between_axis in H. apply andb_prop in H as (H1 & H2). apply RN_nleb_true in H1, H2. rewrite axis_range_length in H2. cbn [still thickness] in *. rn. lra.
  Qed.
End Loose.
Lemma periodic_descending (g : grid RN) a : regular g -> multidimensional RN g = true -> (a < ndim RN g)%nat -> step_of g a < 0 -> origin_at_center RN g a = true -> (2 <= points g a)%nat ->
  exists b within, periodic_bound RN g = Ok b /\ between RN b = Ok within /\ forall p, inside g p -> within p = false.
Proof.
  intros Rg M Ha S O P. destruct (still_between g Rg M) as (w & E & W). exists (still g), w. split; [reflexivity|]. split; [exact E|]. intros p Hp. apply not_true_is_false. intros X. specialize (W p a Ha X).
  destruct Rg as (_ & _ & Hs). assert (forall j, (j < points g a)%nat -> @nth R j (axis_range RN g a) 0 = first RN g a + INR j * step_of g a) as Nth.
  { intros j Hj. change (@nth (carrier RN) j (axis_range RN g a) 0 = first RN g a + INR j * step_of g a). rewrite axis_range_nth by auto. unfold order. rewrite O. reflexivity. }
  rewrite (Nth 0%nat), (Nth (points g a - 1)%nat) in W by lia. cbn [INR] in W. assert (1 <= INR (points g a - 1)) by (apply (le_INR 1); lia). nra.
Qed.
Lemma periodic_rolled (g : grid RN) a : regular g -> multidimensional RN g = true -> (a < ndim RN g)%nat -> 0 < step_of g a -> origin_at_center RN g a = false -> (2 <= points g a)%nat ->
  exists b within, periodic_bound RN g = Ok b /\ between RN b = Ok within /\ forall p, inside g p -> within p = false.
Proof.
  intros Rg M Ha S O P. destruct (still_between g Rg M) as (w & E & W). exists (still g), w. split; [reflexivity|]. split; [exact E|]. intros p Hp. apply not_true_is_false. intros X. specialize (W p a Ha X).
  destruct Rg as (_ & _ & Hs). 
  assert (forall j, (j < points g a)%nat -> @nth R j (axis_range RN g a) 0 = first RN g a + INR (order false (points g a) j) * step_of g a) as Nth.
  { intros j Hj. change (@nth (carrier RN) j (axis_range RN g a) 0 = first RN g a + INR (order false (points g a) j) * step_of g a). rewrite axis_range_nth by auto. rewrite O. reflexivity. }
  rewrite (Nth 0%nat), (Nth (points g a - 1)%nat) in W by lia. unfold order in W.
  assert ((0 + points g a / 2) mod points g a = points g a / 2)%nat as E0 by (apply Nat.mod_small; lia).
  assert ((points g a - 1 + points g a / 2) mod points g a = points g a / 2 - 1)%nat as E1.
  { replace (points g a - 1 + points g a / 2)%nat with (points g a / 2 - 1 + 1 * points g a)%nat by lia. rewrite Nat.mod_add by lia. apply Nat.mod_small. lia. }
  rewrite E0, E1 in W. rewrite minus_INR in W by lia. cbn [INR] in W. nra.
Qed.
