(** Comparison of grids: proofs. *)
From Coq Require Import Reals List Arith ZArith Bool Lia QArith Qcanon.
Require Import Verif.Base Verif.Num Verif.Grid_Model Verif.Grid_Spec Verif.Grid_Proofs Verif.Grid_Tests Verif.Equal_Model.
Import ListNotations.
Local Open Scope nat_scope.

Lemma also_true a b : also a b = Ok true <-> a = Ok true /\ b = Ok true.
Proof. unfold also. destruct a as [[|]|]; cbn [bind]; split; [intros H; auto|intros [_ H]; exact H|discriminate|intros [H _]; discriminate H|discriminate|intros [H _]; discriminate H]. Qed.
Lemma all_equal_refl {A} (eqb : A -> A -> bool) n x : (forall u, eqb u u = true) -> all_equal eqb n x n x = Ok true.
Proof. intros R. unfold all_equal. rewrite Nat.eqb_refl. f_equal. apply forallb_forall. intros i _. apply R. Qed.
Lemma all_equal_sym {A} (eqb : A -> A -> bool) m x n y : (forall u v, eqb u v = eqb v u) -> all_equal eqb m x n y = all_equal eqb n y m x.
Proof.
  intros Sy. unfold all_equal. rewrite (Nat.eqb_sym n m). destruct (Nat.eqb_spec m n) as [->|D].
  - f_equal. induction (seq 0 n) as [|i l IH]; [reflexivity|]. cbn. rewrite Sy, IH. reflexivity.
  - destruct (Nat.eqb_spec m 1), (Nat.eqb_spec n 1); try lia; try reflexivity.
    + f_equal. induction (seq 0 n) as [|i l IH]; [reflexivity|]. cbn. rewrite Sy, IH. reflexivity.
    + f_equal. induction (seq 0 m) as [|i l IH]; [reflexivity|]. cbn. rewrite Sy, IH. reflexivity.
Qed.
Lemma all_equal_same {A} (eqb : A -> A -> bool) n x y : (forall u v, eqb u v = true <-> u = v) -> (all_equal eqb n x n y = Ok true <-> forall i, i < n -> x i = y i).
Proof.
  intros E. unfold all_equal. rewrite Nat.eqb_refl. split.
  - intros H. assert (forallb (fun i => eqb (x i) (y i)) (seq 0 n) = true) as F by congruence. rewrite forallb_forall in F. intros i Hi. apply E, F, in_seq. lia.
  - intros H. f_equal. apply forallb_forall. intros i Hi. apply in_seq in Hi. apply E, H. lia.
Qed.
Lemma all_equal_one {A} (eqb : A -> A -> bool) n x y : (forall u v, eqb u v = true <-> u = v) -> (forall i, i < n -> x 0 = y i) -> all_equal eqb 1 x n y = Ok true.
Proof.
  intros E H. unfold all_equal. destruct (Nat.eqb_spec 1 n) as [<-|D].
  - f_equal. apply forallb_forall. intros i Hi. apply in_seq in Hi. apply E. replace i with 0 by lia. apply H. lia.
  - cbn [Nat.eqb]. f_equal. apply forallb_forall. intros i Hi. apply in_seq in Hi. apply E, H. lia.
Qed.
Lemma Zeqb_iff u v : Z.eqb u v = true <-> u = v. Proof. apply Z.eqb_eq. Qed.
Lemma Beqb_iff u v : Bool.eqb u v = true <-> u = v. Proof. apply eqb_true_iff. Qed.
Lemma same_dt_iff a b : same_dt a b = true <-> a = b.
Proof. destruct a, b; cbn; split; congruence. Qed.
Lemma Ok_true (b : bool) : Ok b = Ok true <-> b = true. Proof. split; congruence. Qed.

(** Reflexive and symmetric. *)
Lemma equal_refl (a : object RN) : equal RN a a = Ok true.
Proof.
  unfold equal. rewrite !also_true. pose proof (fun u => proj2 (RN_neqb_true u u) eq_refl) as R.
  repeat split; try (apply all_equal_refl; [exact R||exact Z.eqb_refl||exact eqb_reflx]); [f_equal; apply eqb_reflx|f_equal; apply same_dt_iff; reflexivity].
Qed.
Lemma equal_sym (a b : object RN) : equal RN a b = equal RN b a.
Proof.
  assert (forall u v : RN, neqb RN u v = neqb RN v u) as S1. { intros u v. destruct (neqb RN u v) eqn:E; symmetry; [apply RN_neqb_true in E; apply RN_neqb_true; congruence|]. destruct (neqb RN v u) eqn:E'; [|reflexivity]. apply RN_neqb_true in E'. apply RN_neqb_false in E. congruence. }
  assert (forall u v, Bool.eqb u v = Bool.eqb v u) as S2 by (intros [|] [|]; reflexivity).
  unfold equal. set (g := state RN a). set (h := state RN b). rewrite (all_equal_sym Z.eqb (ndim RN g) (shape RN g) (ndim RN h) (shape RN h) Z.eqb_sym). rewrite (all_equal_sym (neqb RN) (step_size RN g) (at_ RN (step RN g)) _ _ S1), (all_equal_sym (neqb RN) (ndim RN g) (at_ RN (center RN g)) _ _ S1).
  rewrite (all_equal_sym Bool.eqb (ndim RN g) (flat RN g) _ _ S2), (all_equal_sym Bool.eqb (ndim RN g) (center_at_index RN g) _ _ S2), (all_equal_sym Bool.eqb (ndim RN g) (origin_at_center RN g) _ _ S2). rewrite (S2 (is_mutable RN a)).
  unfold same_dt. rewrite (S2 (is_int (grid_dtype RN g))). reflexivity.
Qed.
(** Equal means the same, for the same number of axes. *)
Lemma equal_iff m (g h : grid RN) : ndim RN g = ndim RN h -> short_step RN g = false -> short_step RN h = false ->
  (equal RN (Build_object RN m g) (Build_object RN m h) = Ok true <-> (forall i, i < ndim RN g -> same_axis g i h i) /\ grid_dtype RN g = grid_dtype RN h).
Proof.
  intros D S1 S2. unfold equal. cbn [is_mutable state]. rewrite !also_true. unfold step_size. rewrite S1, S2, <- D.
  rewrite (all_equal_same Z.eqb _ _ _ Zeqb_iff), !(all_equal_same (neqb RN) _ _ _ RN_neqb_true), !(all_equal_same Bool.eqb _ _ _ Beqb_iff), !Ok_true, same_dt_iff, Beqb_iff. split.
  - intros (_ & A & B & C' & E & F & I & J). split; [|exact J]. intros i Hi. unfold same_axis, step_of, center_of. auto 10.
  - intros (A & J). unfold same_axis, step_of, center_of in A. repeat split; try exact J; intros i Hi; apply (A i Hi).
Qed.
Lemma raw_same (g h : grid RN) i j : same_axis g i h i -> raw_coordinate RN g i j = raw_coordinate RN h i j.
Proof. intros (A & B & C' & _ & _ & F). unfold raw_coordinate. unfold step_of, center_of in *. rewrite A, B, C', F. reflexivity. Qed.
Lemma range_same (g h : grid RN) i : same_axis g i h i -> axis_range RN g i = axis_range RN h i.
Proof.
  intros S. unfold axis_range. assert (map (raw_coordinate RN g i) (seq 0 (Z.to_nat (shape RN g i))) = map (raw_coordinate RN h i) (seq 0 (Z.to_nat (shape RN h i)))) as E.
  { destruct S as (A & S'). rewrite A. apply map_ext. intros j. apply raw_same. exact (conj A S'). }
  destruct S as (_ & _ & _ & _ & O & _). cbv zeta. rewrite E, O. reflexivity.
Qed.
Lemma constructed_tags a g : construct RN a = Ok g -> tag RN (step RN g) = tag RN (center RN g).
Proof.
  unfold construct. intros H. repeat match type of H with
  | bind ?x _ = _ => let y := fresh "y" in let E := fresh "E" in destruct x as [y|] eqn:E; [cbn [bind] in H|discriminate H]
  | (let '(_, _) := ?p in _) = _ => destruct p
  | (if ?b then _ else _) = _ => destruct b; [discriminate H|]
  end. inversion H. reflexivity.
Qed.
Lemma show_same {A} (g h : grid RN) n (x y : nat -> A) : multidimensional RN g = multidimensional RN h -> 0 < n -> (forall i, i < n -> x i = y i) -> show RN g n x = show RN h n y.
Proof. intros M L E. unfold show. rewrite <- M. destruct (multidimensional RN g); f_equal; [|apply E, L]. apply map_ext_in. intros i Hi. apply in_seq in Hi. apply E. lia. Qed.

Lemma equal_same m a b g h : construct RN a = Ok g -> construct RN b = Ok h -> 1 <= ndim RN g -> ndim RN g = ndim RN h -> multidimensional RN g = multidimensional RN h -> short_step RN g = false -> short_step RN h = false ->
  (equal RN (Build_object RN m g) (Build_object RN m h) = Ok true <-> same_grid g h /\ grid_dtype RN g = grid_dtype RN h) /\
  (equal RN (Build_object RN m g) (Build_object RN m h) = Ok true ->
    (forall i, i < ndim RN g -> axis_range RN g i = axis_range RN h i) /\ forall text_hash, hash RN text_hash (Build_object RN m g) = hash RN text_hash (Build_object RN m h)).
Proof.
  intros Ca Cb L D M S1 S2. pose proof (equal_iff m g h D S1 S2) as E. split.
  - rewrite E. unfold same_grid. intuition.
  - intros H. apply E in H. destruct H as (A & T). split; [intros i Hi; apply range_same, A, Hi|]. intros th. unfold hash. f_equal. unfold repr. cbn [is_mutable state].
    assert (tag RN (step RN g) = tag RN (step RN h) /\ tag RN (center RN g) = tag RN (center RN h)) as [T1 T2].
    { pose proof (constructed_tags a g Ca). pose proof (constructed_tags b h Cb). unfold grid_dtype in T. rewrite <- D in T. destruct (Nat.eqb_spec (ndim RN g) 0); [lia|].
      destruct (tag RN (step RN g)), (tag RN (center RN g)), (tag RN (step RN h)), (tag RN (center RN h)); cbn in *; split; congruence. }
    unfold step_size. rewrite S1, S2, <- D, T, T1, T2. unfold same_axis, step_of, center_of in A.
    f_equal; [|f_equal|f_equal| | |]; apply show_same; try exact M; try lia; intros i Hi; apply (A i Hi).
Qed.
(** The text shows all that is compared. *)
Lemma show_inj {A} (g h : grid RN) n (x y : nat -> A) : (multidimensional RN g = false -> n = 1) -> (multidimensional RN h = false -> n = 1) -> show RN g n x = show RN h n y -> forall i, i < n -> x i = y i.
Proof.
  intros M1 M2 E i Hi. unfold show in E. destruct (multidimensional RN g), (multidimensional RN h); try discriminate.
  - injection E as E. apply (f_equal (fun l => nth_error l i)) in E. rewrite !nth_error_map, !(nth_error_nth' _ 0), !seq_nth in E by (rewrite ?seq_length; exact Hi). injection E as E. exact E.
  - injection E as E. specialize (M1 eq_refl). assert (i = 0) as -> by lia. exact E.
Qed.
Lemma text_equal m m' (g h : grid RN) : ndim RN g = ndim RN h -> short_step RN g = false -> short_step RN h = false -> (multidimensional RN g = false -> ndim RN g = 1) -> (multidimensional RN h = false -> ndim RN h = 1) ->
  repr RN (Build_object RN m g) = repr RN (Build_object RN m' h) -> m = m' /\ equal RN (Build_object RN m g) (Build_object RN m' h) = Ok true.
Proof.
  intros D S1 S2 M1 M2 E. unfold repr in E. cbn [is_mutable state] in E. unfold step_size in E. rewrite S1, S2, <- D in E.
  injection E as Em Es Etag Est Etag' Ec Ef Ea Eo Ed. split; [exact Em|]. rewrite <- Em. apply equal_iff; try assumption. split; [|exact Ed].
  rewrite <- D in M2. intros i Hi. unfold same_axis, step_of, center_of. pose proof (fun A x y E => @show_inj A g h (ndim RN g) x y M1 M2 E i Hi) as K.
  refine (conj (K _ _ _ Es) (conj (K _ _ _ Est) (conj (K _ _ _ Ec) (conj (K _ _ _ Ef) (conj (K _ _ _ Eo) (K _ _ _ Ea)))))).
Qed.
Lemma equal_trans m (f g h : grid RN) : ndim RN f = ndim RN g -> ndim RN g = ndim RN h -> short_step RN f = false -> short_step RN g = false -> short_step RN h = false ->
  equal RN (Build_object RN m f) (Build_object RN m g) = Ok true -> equal RN (Build_object RN m g) (Build_object RN m h) = Ok true -> equal RN (Build_object RN m f) (Build_object RN m h) = Ok true.
Proof.
  intros D1 D2 S1 S2 S3 E1 E2. apply equal_iff in E1; try assumption. apply equal_iff in E2; try assumption. apply equal_iff; try assumption; [congruence|]. destruct E1 as (A1 & T1), E2 as (A2 & T2). split; [|congruence].
  intros i Hi. specialize (A1 i Hi). specialize (A2 i ltac:(rewrite <- D1; exact Hi)). unfold same_axis in *. intuition congruence.
Qed.
(** One axis, and the same axis repeatedly. *)
Lemma equal_repeated m (g h : grid RN) : ndim RN g = 1 -> short_step RN g = false -> 1 <= ndim RN h -> short_step RN h = false -> (forall i, i < ndim RN h -> same_axis g 0 h i) -> grid_dtype RN g = grid_dtype RN h ->
  equal RN (Build_object RN m g) (Build_object RN m h) = Ok true.
Proof.
  intros D S1 L S2 A T. unfold equal. cbn [is_mutable state]. rewrite !also_true. unfold step_size. rewrite S1, S2, D. unfold same_axis, step_of, center_of in A.
  refine (conj _ (conj _ (conj _ (conj _ (conj _ (conj _ (conj _ _))))))); [f_equal; apply eqb_reflx|..|f_equal; apply same_dt_iff; exact T].
  - apply all_equal_one; [exact Zeqb_iff|]. intros i Hi. apply (A i Hi).
  - apply all_equal_one; [exact RN_neqb_true|]. intros i Hi. apply (A i Hi).
  - apply all_equal_one; [exact RN_neqb_true|]. intros i Hi. apply (A i Hi).
  - apply all_equal_one; [exact Beqb_iff|]. intros i Hi. apply (A i Hi).
  - apply all_equal_one; [exact Beqb_iff|]. intros i Hi. apply (A i Hi).
  - apply all_equal_one; [exact Beqb_iff|]. intros i Hi. apply (A i Hi).
Qed.
Lemma compare_refused m (g h : grid RN) : 2 <= ndim RN g -> 2 <= ndim RN h -> ndim RN g <> ndim RN h -> equal RN (Build_object RN m g) (Build_object RN m h) = Err ValueError.
Proof.
  intros L1 L2 D. unfold equal. cbn [is_mutable state]. unfold also at 1. rewrite eqb_reflx. cbn [bind]. unfold all_equal at 1. destruct (Nat.eqb_spec (ndim RN g) (ndim RN h)); [contradiction|]. destruct (Nat.eqb_spec (ndim RN g) 1); [lia|]. destruct (Nat.eqb_spec (ndim RN h) 1); [lia|]. reflexivity.
Qed.

(** Executed on rationals: Grid(3), Grid([3]) and Grid([3, 3]). *)
Definition as_grid (a : args QN) : result (object QN) := do g <- construct QN a; Ok (Build_object QN false g).
Definition compare (a b : args QN) : result bool := do x <- as_grid a; do y <- as_grid b; equal QN x y.
Definition three : args QN := G (Some (z 3)) None None None None None false true.
Definition three1 : args QN := G (Some (zs [3%Z])) None None None None None false true.
Definition three2 : args QN := G (Some (zs [3%Z; 3%Z])) None None None None None false true.
Definition many {A} (x : shown A) : option nat := match x with One _ => None | Many l => Some (length l) end.
Lemma threes_equal : compare three three1 = Ok true /\ compare three1 three2 = Ok true /\ compare three three2 = Ok true.
Proof. vm_compute. auto. Qed.
Lemma threes_differ : exists x y z', as_grid three = Ok x /\ as_grid three1 = Ok y /\ as_grid three2 = Ok z' /\
  multidimensional QN (state QN x) = false /\ multidimensional QN (state QN y) = true /\ ndim QN (state QN y) = 1 /\ ndim QN (state QN z') = 2 /\ repr QN x <> repr QN y /\ repr QN y <> repr QN z' /\ repr QN x <> repr QN z'.
Proof.
  destruct (as_grid three) as [x|] eqn:Ex; [|vm_compute in Ex; discriminate Ex]. destruct (as_grid three1) as [y|] eqn:Ey; [|vm_compute in Ey; discriminate Ey]. destruct (as_grid three2) as [w|] eqn:Ew; [|vm_compute in Ew; discriminate Ew].
  assert (forall (f : object QN -> option nat) a o, as_grid a = Ok o -> forall r, match as_grid a with Ok o => f o | Err _ => None end = r -> f o = r) as K by (intros f a o E r; rewrite E; auto).
  pose proof (K (fun o => many (t_shape QN (repr QN o))) _ _ Ex None ltac:(vm_compute; reflexivity)) as Rx.
  pose proof (K (fun o => many (t_shape QN (repr QN o))) _ _ Ey (Some 1) ltac:(vm_compute; reflexivity)) as Ry.
  pose proof (K (fun o => many (t_shape QN (repr QN o))) _ _ Ew (Some 2) ltac:(vm_compute; reflexivity)) as Rw.
  pose proof (K (fun o => Some (ndim QN (state QN o))) _ _ Ey (Some 1) ltac:(vm_compute; reflexivity)) as Dy.
  pose proof (K (fun o => Some (ndim QN (state QN o))) _ _ Ew (Some 2) ltac:(vm_compute; reflexivity)) as Dw.
  pose proof (K (fun o => if multidimensional QN (state QN o) then Some 0 else None) _ _ Ex None ltac:(vm_compute; reflexivity)) as Mx.
  pose proof (K (fun o => if multidimensional QN (state QN o) then Some 0 else None) _ _ Ey (Some 0) ltac:(vm_compute; reflexivity)) as My.
  cbn beta in *. exists x, y, w. refine (conj eq_refl (conj eq_refl (conj eq_refl (conj _ (conj _ (conj _ (conj _ (conj _ (conj _ _))))))))).
  - destruct (multidimensional QN (state QN x)); [discriminate Mx|reflexivity].
  - destruct (multidimensional QN (state QN y)); [reflexivity|discriminate My].
  - congruence.
  - congruence.
  - intros E. rewrite E in Rx. congruence.
  - intros E. rewrite E in Ry. congruence.
  - intros E. rewrite E in Rx. congruence.
Qed.
