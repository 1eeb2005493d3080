(** Proofs about dim.py. *)
From Coq Require Import ZifyBool ZifyNat.
From Verif Require Import Base Dim_Model.
Local Open Scope Z_scope.
Ltac Zify.zify_post_hook ::= Z.div_mod_to_equations.

Lemma prodn_app l1 l2 : prodn (l1 ++ l2) = (prodn l1 * prodn l2)%nat.
Proof. induction l1 as [|x l1 IH]; cbn; [lia|]. rewrite IH. apply Nat.mul_assoc. Qed.

Lemma prodn_repeat1 n : prodn (repeat 1%nat n) = 1%nat.
Proof. induction n as [|n IH]; cbn; [reflexivity|]. rewrite IH. lia. Qed.

Lemma reshape_elements {A} (a : ndarray A) s b :
  reshape a s = Ok b -> elements b = elements a /\ shape b = s.
Proof.
  unfold reshape. destruct (_ =? _)%nat; intros H; [injection H as <-|discriminate]. split; reflexivity.
Qed.

Lemma add_elements {A} (arr b : ndarray A) left right nd :
  add arr left right nd = Ok b ->
  elements b = elements arr /\ prodn (shape b) = prodn (shape arr).
Proof.
  unfold add. destruct (pad_args arr left right nd) as [l r]. unfold bind.
  destruct (pad_left arr l) as [a|e] eqn:HL; [|discriminate].
  assert (Ha : elements a = elements arr /\ prodn (shape a) = prodn (shape arr)).
  { unfold pad_left in HL. destruct l as [l|]; [|injection HL as <-; auto].
    destruct (0 <? l).
    - injection HL as <-. cbn. rewrite prodn_app, prodn_repeat1. split; [reflexivity|lia].
    - destruct (l <? 0); [|injection HL as <-; auto].
      unfold reshape in HL. destruct (_ =? _)%nat eqn:E in HL; [|discriminate].
      injection HL as <-. cbn. apply Nat.eqb_eq in E. auto. }
  intros HR. unfold pad_right in HR. destruct r as [r|]; [|injection HR as <-; auto].
  destruct (0 <? r).
  - injection HR as <-. cbn. rewrite prodn_app, prodn_repeat1. split; [apply Ha|lia].
  - destruct (r <? 0); [|injection HR as <-; auto].
    unfold reshape in HR. destruct (_ =? _)%nat eqn:E in HR; [|discriminate].
    injection HR as <-. cbn. apply Nat.eqb_eq in E. split; [apply Ha|lia].
Qed.

Lemma add_nonneg {A} (arr : ndarray A) (n m : nat) :
  add arr (Some (Z.of_nat n)) (Some (Z.of_nat m)) None
  = Ok (Build_ndarray (repeat 1%nat n ++ shape arr ++ repeat 1%nat m) (elements arr)).
Proof.
  unfold add, pad_args, bind, pad_left, pad_right.
  destruct n as [|n].
  - cbn [Z.of_nat Z.ltb Z.compare].
    destruct m as [|m]; cbn [Z.of_nat Z.ltb Z.compare repeat app].
    + rewrite app_nil_r. destruct arr; reflexivity.
    + unfold expand_right. 
      replace (Z.to_nat (Z.pos (Pos.of_succ_nat m))) with (S m) by lia. reflexivity.
  - replace (0 <? Z.of_nat (S n)) with true by lia.
    unfold expand_left. rewrite Nat2Z.id.
    destruct m as [|m]; cbn [Z.of_nat Z.ltb Z.compare repeat app shape elements].
    + rewrite app_nil_r. reflexivity.
    + unfold expand_right. replace (Z.to_nat (Z.pos (Pos.of_succ_nat m))) with (S m) by lia.
      cbn [shape elements]. rewrite app_comm_cons, app_assoc. reflexivity.
Qed.

Lemma firstn_ones (s : list nat) n :
  (n <= length s)%nat -> firstn n s = repeat 1%nat n -> s = repeat 1%nat n ++ skipn n s.
Proof. intros Hn H. rewrite <- H. symmetry. apply firstn_skipn. Qed.

Lemma add_remove_left {A} (arr : ndarray A) (n : nat) :
  (0 < n <= length (shape arr))%nat ->
  add arr (Some (- Z.of_nat n)) None None =
  if (prodn (skipn n (shape arr)) =? prodn (shape arr))%nat
  then Ok (Build_ndarray (skipn n (shape arr)) (elements arr)) else Err ValueError.
Proof.
  intros Hn. unfold add, pad_args, bind, pad_left, reshape.
  replace (0 <? - Z.of_nat n) with false by lia. replace (- Z.of_nat n <? 0) with true by lia.
  replace (Z.to_nat (- - Z.of_nat n)) with n by lia.
  destruct (_ =? _)%nat; reflexivity.
Qed.

Lemma prodn_pos_ones (s : list nat) : prodn s = 1%nat -> s = repeat 1%nat (length s).
Proof.
  induction s as [|x s IH]; cbn; intros H; [reflexivity|].
  assert (x = 1%nat /\ prodn s = 1%nat) as [-> Hs] by (apply Nat.eq_mul_1; exact H).
  f_equal. auto.
Qed.

(** Removing axes on the left succeeds exactly if they are singletons (non-empty arrays). *)
Lemma add_remove_left_spec {A} (arr : ndarray A) (n : nat) :
  (0 < n <= length (shape arr))%nat -> (0 < prodn (shape arr))%nat ->
  (firstn n (shape arr) = repeat 1%nat n /\
   add arr (Some (- Z.of_nat n)) None None = Ok (Build_ndarray (skipn n (shape arr)) (elements arr)))
  \/ (firstn n (shape arr) <> repeat 1%nat n /\ add arr (Some (- Z.of_nat n)) None None = Err ValueError).
Proof.
  intros Hn Hp. rewrite (add_remove_left arr n Hn).
  pose proof (firstn_skipn n (shape arr)) as Hsplit.
  assert (Hprod : prodn (shape arr) = (prodn (firstn n (shape arr)) * prodn (skipn n (shape arr)))%nat).
  { rewrite <- Hsplit at 1. apply prodn_app. }
  destruct (Nat.eqb_spec (prodn (skipn n (shape arr))) (prodn (shape arr))) as [E|E].
  - left. split; [|reflexivity].
    assert (prodn (firstn n (shape arr)) = 1%nat) as H1 by nia.
    apply prodn_pos_ones in H1. rewrite H1 at 1. f_equal. rewrite firstn_length. lia.
  - right. split; [|reflexivity]. intros H1. apply E. rewrite Hprod, H1, prodn_repeat1. lia.
Qed.

Lemma left_to_spec {A} (arr : ndarray A) (n : nat) :
  (length (shape arr) <= n)%nat ->
  left_to arr (Z.of_nat n) =
  Ok (Build_ndarray (repeat 1%nat (n - length (shape arr)) ++ shape arr) (elements arr)).
Proof.
  intros Hn. unfold left_to, add, pad_args, bind, pad_left, pad_right, ndim.
  destruct (0 <? Z.of_nat n - Z.of_nat (length (shape arr)) - 0) eqn:E.
  - change (0 <? 0) with false. cbn match. unfold expand_left.
    replace (Z.to_nat _) with (n - length (shape arr))%nat by lia. reflexivity.
  - replace (Z.of_nat n - Z.of_nat (length (shape arr)) - 0 <? 0) with false by lia. change (0 <? 0) with false. cbn match.
    replace (n - length (shape arr))%nat with O by lia. destruct arr; reflexivity.
Qed.

Lemma right_to_spec {A} (arr : ndarray A) (n : nat) :
  (length (shape arr) <= n)%nat ->
  right_to arr (Z.of_nat n) =
  Ok (Build_ndarray (shape arr ++ repeat 1%nat (n - length (shape arr))) (elements arr)).
Proof.
  intros Hn. unfold right_to, add, pad_args, bind, pad_left, pad_right, ndim.
  destruct (0 <? Z.of_nat n - Z.of_nat (length (shape arr))) eqn:E.
  - unfold expand_right.
    replace (Z.to_nat _) with (n - length (shape arr))%nat by lia. reflexivity.
  - replace (Z.of_nat n - Z.of_nat (length (shape arr)) <? 0) with false by lia.
    replace (n - length (shape arr))%nat with O by lia. cbn. rewrite app_nil_r. destruct arr; reflexivity.
Qed.

(** A vector is oriented along the requested (possibly negative) axis. *)
Lemma to_axis_vector {A} (v : list A) (len : nat) (axis : Z) (n : nat) :
  (0 < n)%nat -> - Z.of_nat n <= axis < Z.of_nat n ->
  let a := Z.to_nat (axis mod Z.of_nat n) in
  to_axis (Build_ndarray [len] v) axis (Some (Z.of_nat n))
  = Ok (Build_ndarray (repeat 1%nat a ++ [len] ++ repeat 1%nat (n - 1 - a)) v).
Proof.
  intros Hn Hax a. unfold to_axis.
  replace (Z.of_nat n =? 0) with false by lia.
  assert (Ha : 0 <= axis mod Z.of_nat n < Z.of_nat n) by (apply Z.mod_pos_bound; lia).
  unfold add, pad_args, ndim. cbn [shape length].
  replace (axis mod Z.of_nat n) with (Z.of_nat a) in * by lia.
  replace (Z.of_nat n - Z.of_nat 1 - Z.of_nat a) with (Z.of_nat (n - 1 - a)) by lia.
  pose proof (add_nonneg (Build_ndarray [len] v) a (n - 1 - a)) as H.
  unfold add, pad_args in H. rewrite H. reflexivity.
Qed.

(** For arrays of any rank and a non-negative target axis there is room to the right. *)
Lemma to_axis_nonneg {A} (arr : ndarray A) (a n : nat) :
  (a + length (shape arr) <= n)%nat -> (a < n)%nat ->
  to_axis arr (Z.of_nat a) (Some (Z.of_nat n))
  = Ok (Build_ndarray (repeat 1%nat a ++ shape arr ++ repeat 1%nat (n - a - length (shape arr))) (elements arr)).
Proof.
  intros Hl Ha. unfold to_axis. replace (Z.of_nat n =? 0) with false by lia.
  rewrite Z.mod_small by lia. unfold add, pad_args, ndim.
  replace (Z.of_nat n - Z.of_nat (length (shape arr)) - Z.of_nat a)
    with (Z.of_nat (n - a - length (shape arr))) by lia.
  pose proof (add_nonneg arr a (n - a - length (shape arr))) as H.
  unfold add, pad_args in H. exact H.
Qed.

(** The left-removal rule fails for empty arrays: a non-singleton axis is removed without an error. *)
Lemma add_remove_left_empty : exists (arr : ndarray Z) b,
  firstn 1 (shape arr) <> repeat 1%nat 1 /\ length (elements arr) = prodn (shape arr) /\ add arr (Some (-1)) None None = Ok b.
Proof.
  exists (Build_ndarray [3%nat; 0%nat] []), (Build_ndarray [0%nat] []).
  split; [discriminate|]. split; reflexivity.
Qed.

(** Removing singleton axes on the right. *)
Lemma add_remove_right_wrong : exists (arr : ndarray Z) b,
  shape arr = [3; 1; 1]%nat /\ length (elements arr) = prodn (shape arr) /\ add arr None (Some (-1)) None = Ok b /\ shape b = [3]%nat /\ shape b <> [3; 1]%nat.
Proof.
  exists (Build_ndarray [3;1;1]%nat [10;20;30]), (Build_ndarray [3%nat] [10;20;30]).
  repeat split; discriminate.
Qed.

(** Removal on the right gives the documented shape exactly when as many axes are kept as are removed
    (or in the degenerate case where the two prefixes coincide). *)
Lemma add_remove_right_half {A} (arr : ndarray A) (n : nat) :
  (0 < n)%nat -> length (shape arr) = (2 * n)%nat -> skipn n (shape arr) = repeat 1%nat n ->
  add arr None (Some (- Z.of_nat n)) None = Ok (Build_ndarray (firstn (length (shape arr) - n) (shape arr)) (elements arr)).
Proof.
  intros Hn Hl Hs. unfold add, pad_args, bind, pad_left, pad_right.
  replace (0 <? - Z.of_nat n) with false by lia. replace (- Z.of_nat n <? 0) with true by lia.
  replace (Z.to_nat (- - Z.of_nat n)) with n by lia.
  unfold reshape. rewrite Hl. replace (2 * n - n)%nat with n by lia.
  replace (prodn (shape arr)) with (prodn (firstn n (shape arr)) * prodn (skipn n (shape arr)))%nat
    by (rewrite <- prodn_app, firstn_skipn; reflexivity).
  rewrite Hs, prodn_repeat1, Nat.mul_1_r, Nat.eqb_refl. reflexivity.
Qed.

(** Removing the right-most singleton of an array with three or more axes whose second axis is not a
    singleton always raises. *)
Lemma add_remove_right_raises {A} (arr : ndarray A) (a b : nat) (s : list nat) :
  shape arr = a :: b :: s ++ [1%nat] -> (0 < prodn (shape arr))%nat -> (1 < b)%nat ->
  add arr None (Some (-1)) None = Err ValueError.
Proof.
  intros Hs Hp Hb. unfold add, pad_args, bind, pad_left, pad_right.
  change (0 <? -1) with false. change (-1 <? 0) with true. cbn match.
  change (Z.to_nat (- -1)) with 1%nat. unfold reshape. rewrite Hs in *. cbn [firstn prodn] in *.
  destruct (Nat.eqb_spec (a * 1) (a * (b * prodn (s ++ [1%nat])))) as [E|E]; [|reflexivity].
  exfalso. assert (Ha : a <> 0%nat) by (intros ->; cbn in Hp; lia).
  apply Nat.mul_cancel_l in E; [|exact Ha]. symmetry in E. apply Nat.eq_mul_1 in E. lia.
Qed.

Lemma to_axis_negative_wrong : exists arr : ndarray Z,
  shape arr = [2; 2]%nat /\ length (elements arr) = prodn (shape arr) /\ to_axis arr (-1) None = Err ValueError.
Proof. exists (Build_ndarray [2;2]%nat [1;2;3;4]). repeat split. Qed.

Lemma to_axis_default {A} (v : list A) (len : nat) (axis : Z) :
  to_axis (Build_ndarray [len] v) axis None
  = Ok (Build_ndarray (if 0 <=? axis then repeat 1%nat (Z.to_nat axis) ++ [len]
                       else [len] ++ repeat 1%nat (Z.to_nat (- axis - 1))) v).
Proof.
  set (n := Z.to_nat (1 + Z.max axis (- axis - 1))).
  transitivity (to_axis (Build_ndarray [len] v) axis (Some (Z.of_nat n))).
  - unfold to_axis, ndim. cbn [shape length]. replace (Z.of_nat n) with (Z.of_nat 1 + Z.max axis (- axis - 1)) by lia. reflexivity.
  - rewrite to_axis_vector by lia. f_equal. f_equal. destruct (Z.leb_spec 0 axis).
    + replace (axis mod Z.of_nat n) with axis by (rewrite Z.mod_small; lia).
      replace (n - 1 - Z.to_nat axis)%nat with 0%nat by lia. reflexivity.
    + replace (axis mod Z.of_nat n) with 0 by (apply Z.mod_unique with (-1); lia). cbn [Z.to_nat repeat app].
      replace (n - 1 - 0)%nat with (Z.to_nat (- axis - 1)) by lia. reflexivity.
Qed.
