(** Proofs about grid2extent. *)
From Coq Require Import Reals Lra Lia ZArith List Bool Arith.
From Verif Require Import Base Num Grid_Model Grid_Spec Grid_Proofs Display_Model.
Import ListNotations.
Local Open Scope R_scope.

Lemma last_two {A} (f : nat -> A) n : (2 <= n)%nat -> firstn 2 (rev (map f (seq 0 n))) = [f (n - 1)%nat; f (n - 2)%nat].
Proof.
  intros H. destruct n as [|[|n]]; try lia. replace (seq 0 (S (S n))) with (seq 0 n ++ [n; S n]).
  - rewrite map_app, rev_app_distr. cbn [rev map app firstn]. replace (S (S n) - 1)%nat with (S n) by lia.
    replace (S (S n) - 2)%nat with n by lia. reflexivity.
  - rewrite !seq_S. rewrite <- app_assoc. reflexivity.
Qed.
Lemma extent_of_uniform (l : list R) (st : R) : (2 <= length l)%nat -> nth 1 l 0 - nth 0 l 0 = st ->
  extent_of RN l = Ok (nth 0 l 0 - st / 2, nth (length l - 1) l 0 + st / 2).
Proof.
  intros Hl Hs. unfold extent_of. rn. change (carrier RN) with R.
  destruct (Nat.ltb_spec (length l) 2); [lia|].
  rewrite Hs. f_equal. f_equal; unfold Rdiv; ring.
Qed.
(** The edges of the pixels on an axis with coordinates in increasing index order. *)
Theorem extent_grid g origin_lower :
  regular g -> multidimensional RN g = true -> (2 <= ndim RN g)%nat ->
  (forall a, (ndim RN g - 2 <= a < ndim RN g)%nat -> origin_at_center RN g a = true /\ (2 <= points g a)%nat) ->
  forall x y, coordinates g (ndim RN g - 1) = Ok x -> coordinates g (ndim RN g - 2) = Ok y ->
  let dx := step_of g (ndim RN g - 1) in let dy := step_of g (ndim RN g - 2) in
  exists left right bottom top,
    grid2extent_grid RN g origin_lower = Ok (if origin_lower then [left; right; top; bottom] else [left; right; bottom; top]) /\
    left = nth 0 x 0 - dx / 2 /\ right = nth (length x - 1) x 0 + dx / 2 /\
    top = nth 0 y 0 - dy / 2 /\ bottom = nth (length y - 1) y 0 + dy / 2 /\
    right - left = INR (length x) * dx /\ bottom - top = INR (length y) * dy.
Proof.
  intros Hg Hm Hn Ho x y Hx Hy dx dy.
  rewrite coordinates_range in Hx, Hy by (try assumption; lia). injection Hx as <-. injection Hy as <-.
  destruct Hg as (Hs & _ & Hsh).
  assert (forall a, (ndim RN g - 2 <= a < ndim RN g)%nat ->
     extent_of RN (axis_range RN g a) = Ok (@nth R 0 (axis_range RN g a) 0 - step_of g a / 2, @nth R (length (axis_range RN g a) - 1) (axis_range RN g a) 0 + step_of g a / 2) /\
     (@nth R (length (axis_range RN g a) - 1) (axis_range RN g a) 0 + step_of g a / 2) - (@nth R 0 (axis_range RN g a) 0 - step_of g a / 2)
       = INR (length (axis_range RN g a)) * step_of g a) as E.
  { intros a Ha. destruct (Ho a Ha) as [Oa Pa]. specialize (Hsh a ltac:(lia)).
    assert (forall j, (j < points g a)%nat -> @nth R j (axis_range RN g a) 0 = first RN g a + INR j * step_of g a) as V.
    { intros j Hj. etransitivity; [apply (axis_range_nth g a j Hsh Hj)|]. rewrite Oa. reflexivity. }
    split.
    - apply extent_of_uniform.
      + change (2 <= @length (carrier RN) (axis_range RN g a))%nat. rewrite axis_range_length. assumption.
      + rewrite !V by lia. simpl. ring.
    - rewrite axis_range_length, !V by lia. rewrite minus_INR by lia. simpl. field. }
  destruct (E (ndim RN g - 1)%nat ltac:(lia)) as [Ex Wx]. destruct (E (ndim RN g - 2)%nat ltac:(lia)) as [Ey Wy].
  do 4 eexists. split; [|repeat split; [exact Wx|exact Wy]].
  unfold grid2extent_grid. rewrite Hm, Hs. cbn [andb]. rewrite last_two by assumption. cbn [extents]. rewrite Ex, Ey. cbn [bind].
  destruct origin_lower; reflexivity.
Qed.
(** In numpy.fft order the computed width is zero. *)
Theorem extent_fft_order g origin_lower a :
  regular g -> multidimensional RN g = true -> (2 <= ndim RN g)%nat -> a = (ndim RN g - 1)%nat ->
  origin_at_center RN g a = false -> (3 <= points g a)%nat ->
  forall left right rest, grid2extent_grid RN g origin_lower = Ok (left :: right :: rest) -> right - left = 0.
Proof.
  intros (Hs & _ & Hsh) Hm Hn -> Ho Hp left right rest E. unfold grid2extent_grid in E. rewrite Hm, Hs in E. cbn [andb] in E.
  rewrite last_two in E by assumption. cbn [extents] in E. set (a := (ndim RN g - 1)%nat) in *.
  specialize (Hsh a ltac:(unfold a; lia)).
  assert (forall j, (j < points g a)%nat -> @nth R j (axis_range RN g a) 0 = first RN g a + INR ((j + points g a / 2) mod points g a) * step_of g a) as V.
  { intros j Hj. etransitivity; [apply (axis_range_nth g a j Hsh Hj)|]. rewrite Ho. reflexivity. }
  assert (points g a / 2 + 1 < points g a)%nat as H2 by (pose proof (Nat.div_mod (points g a) 2 ltac:(lia)); pose proof (Nat.mod_upper_bound (points g a) 2 ltac:(lia)); lia).
  assert (1 <= points g a / 2)%nat as H1 by (apply Nat.div_le_lower_bound; lia).
  rewrite (extent_of_uniform (axis_range RN g a) (step_of g a)) in E.
  - cbn [bind] in E. destruct (extent_of RN _) as [[f2 l2]|]; cbn [bind] in E; [|discriminate].
    rewrite andb_false_r in E. cbn [Nat.eqb] in E. injection E as <- <- _.
    assert (@length R (axis_range RN g a) = points g a) as -> by apply axis_range_length.
    rewrite !V by lia. replace ((points g a - 1 + points g a / 2) mod points g a)%nat with (points g a / 2 - 1)%nat.
    + rewrite Nat.add_0_l, Nat.mod_small by lia. rewrite minus_INR by lia. simpl. field.
    + replace (points g a - 1 + points g a / 2)%nat with ((points g a / 2 - 1) + 1 * points g a)%nat by lia.
      rewrite Nat.mod_add by lia. rewrite Nat.mod_small by lia. reflexivity.
  - change (2 <= @length (carrier RN) (axis_range RN g a))%nat. rewrite axis_range_length. lia.
  - rewrite !V by lia. rewrite !Nat.mod_small by lia. rewrite plus_INR. simpl. ring.
Qed.
Theorem extent_ranges (ry rx : list R) (others : list (list R)) dx dy :
  (2 <= length rx)%nat -> (2 <= length ry)%nat ->
  (forall j, (j < length rx)%nat -> nth j rx 0 = nth 0 rx 0 + INR j * dx) ->
  (forall j, (j < length ry)%nat -> nth j ry 0 = nth 0 ry 0 + INR j * dy) ->
  grid2extent_ranges RN (others ++ [ry; rx]) false =
    Ok [nth 0 rx 0 - dx / 2; nth (length rx - 1) rx 0 + dx / 2; nth (length ry - 1) ry 0 + dy / 2; nth 0 ry 0 - dy / 2] /\
  grid2extent_ranges RN (others ++ [ry; rx]) true =
    Ok [nth 0 rx 0 - dx / 2; nth (length rx - 1) rx 0 + dx / 2; nth 0 ry 0 - dy / 2; nth (length ry - 1) ry 0 + dy / 2].
Proof.
  intros Lx Ly Ux Uy. unfold grid2extent_ranges. rewrite rev_app_distr. cbn [rev app firstn].
  assert (extent_of RN rx = Ok (nth 0 rx 0 - dx / 2, nth (length rx - 1) rx 0 + dx / 2)) as Ex
    by (apply extent_of_uniform; [assumption|rewrite (Ux 1%nat) by lia; simpl; ring]).
  assert (extent_of RN ry = Ok (nth 0 ry 0 - dy / 2, nth (length ry - 1) ry 0 + dy / 2)) as Ey
    by (apply extent_of_uniform; [assumption|rewrite (Uy 1%nat) by lia; simpl; ring]).
  cbn [extents]. rewrite Ex, Ey. split; reflexivity.
Qed.
