From Coq Require Import Reals Lra Lia List ZifyBool ZifyNat.
From Verif Require Import Base Num Grid_Model Grid_Spec Grid_Proofs Bound_Model Bound_Spec Cplx.
Local Open Scope R_scope.
Ltac Zify.zify_post_hook ::= Z.div_mod_to_equations.

Lemma broadcast1_pick {A} n (l : list A) d f i x :
  broadcast1 n l d = Ok f -> (i < n)%nat -> (pick l i x <-> x = f i).
Proof.
  unfold broadcast1, pick. intros H Hi. destruct l as [|y [|z l]].
  - destruct (Nat.eqb_spec (length (@nil A)) n); [|discriminate]. cbn in e. lia.
  - injection H as <-. reflexivity.
  - destruct (Nat.eqb_spec (length (y :: z :: l)) n); [|discriminate]. injection H as <-.
    rewrite (nth_error_nth' (y :: z :: l) d) by lia. split; [intros H; injection H as <-; reflexivity|intros ->; reflexivity].
Qed.

Lemma broadcast1_ok {A} n (l : list A) d : length l = 1%nat \/ length l = n -> exists f, broadcast1 n l d = Ok f.
Proof.
  unfold broadcast1. intros H. destruct l as [|y [|z l]]; [|eauto|].
  - destruct (Nat.eqb_spec (length (@nil A)) n); [eauto|]. cbn in *. lia.
  - destruct (Nat.eqb_spec (length (y :: z :: l)) n); [eauto|]. exfalso. cbn in *. lia.
Qed.

Lemma broadcast_sides_ok {A} n (a : sides_arg A) d : broadcastable n a -> exists f, broadcast_sides n a d = Ok f.
Proof.
  destruct a as [x|l|rows]; cbn [broadcastable broadcast_sides].
  - eauto.
  - intros H. destruct (broadcast1_ok 2 l d H) as (f & ->). cbn. eauto.
  - intros (H & c & Hc & Hne & Hr).
    replace (forallb _ rows) with true.
    + destruct (broadcast1_ok n rows [] H) as (f & ->). cbn [bind].
      destruct (broadcast1_ok 2 (nth 0 rows []) d) as (f' & ->); [|cbn; eauto].
      rewrite (Hr (nth 0 rows [])); [destruct Hc; auto|]. apply nth_In. destruct rows; [congruence|cbn; lia].
    + symmetry. apply forallb_forall. intros r Hin. rewrite Nat.eqb_eq.
      rewrite (Hr r Hin). symmetry. apply Hr. apply nth_In. destruct rows; [congruence|cbn; lia].
Qed.

Lemma broadcast_sides_sided {A} n (a : sides_arg A) d f axis side x :
  broadcast_sides n a d = Ok f -> (axis < n)%nat -> (side < 2)%nat -> (sided a axis side x <-> x = f axis side).
Proof.
  destruct a as [y|l|rows]; cbn [broadcast_sides sided]; intros H Ha Hs.
  - injection H as <-. reflexivity.
  - apply bind_ok in H as (g & H & E). injection E as <-. eapply broadcast1_pick; eassumption.
  - destruct (forallb _ rows) eqn:EF; [|discriminate].
    apply bind_ok in H as (g & H & E). apply bind_ok in E as (g' & H' & E). injection E as <-.
    assert (forall row, pick rows axis row <-> row = g axis) as P by (intros; eapply broadcast1_pick; eassumption).
    rewrite forallb_forall in EF.
    assert (length (g axis) = length (nth 0 rows [])) as L.
    { apply Nat.eqb_eq. apply EF. specialize (proj2 (P (g axis)) eq_refl). unfold pick.
      destruct rows as [|r [|r' rows]].
      - destruct axis; discriminate.
      - intros ->. left. reflexivity.
      - intros E. eapply nth_error_In. exact E. }
    assert (length (nth 0 rows []) = 1%nat \/ length (nth 0 rows []) = 2%nat) as L2.
    { revert H'. unfold broadcast1. destruct (nth 0 rows []) as [|u [|v w]]; [discriminate|cbn; auto|].
      destruct (Nat.eqb_spec (length (u :: v :: w)) 2); [auto|discriminate]. }
    split.
    + intros (row & Hr & Hx). apply P in Hr. subst row. revert Hx. unfold pick. destruct (g axis) as [|u [|v w]].
      * destruct side; discriminate.
      * auto.
      * intros Hx. apply nth_error_nth with (d := d) in Hx. symmetry. exact Hx.
    + intros ->. exists (g axis). split; [apply P; reflexivity|]. unfold pick. rewrite <- L in L2.
      destruct (g axis) as [|u [|v w]]; [cbn in L2; lia|reflexivity|]. apply (nth_error_nth' (u :: v :: w) d). cbn [length] in *. lia.
Qed.

(** Grids with coordinates in the order of the step, which may be negative. *)
Definition straight (g : grid RN) : Prop :=
  regular g /\ multidimensional RN g = true /\
  forall a, (a < ndim RN g)%nat -> step_of g a <> 0 /\ origin_at_center RN g a = true.
Definition sgn (g : grid RN) (a : nat) : R := if Rlt_dec (step_of g a) 0 then -1 else 1.
Lemma upright_straight g : upright g -> straight g.
Proof. intros (R & M & H). split; [exact R|]. split; [exact M|]. intros a Ha. destruct (H a Ha). split; [lra|assumption]. Qed.

Section Straight.
  Variable b : bound RN.
  Notation g := (b_grid RN b).
  Notation thick := (thickness RN b).
  Notation kf := (kappa_function RN b).
  Hypothesis U : straight g.

  Lemma upright_nth a j : (a < ndim RN g)%nat -> (j < points g a)%nat ->
    @nth R j (axis_range RN g a) 0 = first RN g a + INR j * step_of g a.
  Proof.
    intros Ha Hj. change (@nth (carrier RN) j (axis_range RN g a) 0 = first RN g a + INR j * step_of g a). destruct U as ((_ & _ & Hs) & _ & H). destruct (H a Ha) as (_ & Ho).
    rewrite axis_range_nth by auto. unfold order. rewrite Ho. reflexivity.
  Qed.
  Lemma upright_points a : (a < ndim RN g)%nat -> (1 <= points g a)%nat.
  Proof. intros Ha. destruct U as ((_ & _ & Hs) & _ & H). specialize (Hs a Ha). unfold points. lia. Qed.
  Lemma upright_sign a : (a < ndim RN g)%nat -> nsign (N := RN) (at_ RN (step RN g) a) = sgn g a.
  Proof.
    intros Ha. destruct U as (_ & _ & H). destruct (H a Ha) as (Hp & _). unfold sgn, step_of in *. unfold nsign.
    destruct (neqb RN _ _) eqn:E1; [apply RN_neqb_true in E1; contradiction|].
    destruct (nleb RN _ _) eqn:E2; [apply RN_nleb_true in E2|apply RN_nleb_false in E2]; rn; destruct (Rlt_dec _ 0); lra.
  Qed.

  Lemma getitem_regular a : (a < ndim RN g)%nat -> getitem_axis RN g (Z.of_nat a) = Ok (axis_range RN g a).
  Proof.
    intros Ha. destruct U as ((Hs & _ & _) & Hm & _). unfold getitem_axis. rewrite Hm, norm_index_nat, Hs by assumption.
    reflexivity.
  Qed.
  Lemma ranges_seq m n : (m + n <= ndim RN g)%nat ->
    fold_right (fun i rest => do x <- getitem_axis RN g (Z.of_nat i); do l <- rest; Ok (x :: l)) (Ok []) (seq m n)
    = Ok (map (axis_range RN g) (seq m n)).
  Proof.
    revert m. induction n as [|n IH]; intros m H; [reflexivity|]. cbn [seq fold_right map].
    rewrite getitem_regular by lia. rewrite IH by lia. reflexivity.
  Qed.
  Lemma ranges_ok : ranges RN g = Ok (map (axis_range RN g) (seq 0 (ndim RN g))).
  Proof. unfold ranges. destruct U as (_ & Hm & _). rewrite Hm. apply ranges_seq. lia. Qed.

  Lemma depth_distance a s j : (a < ndim RN g)%nat -> (j < points g a)%nat -> (s < 2)%nat ->
    depth RN b a s (axis_range RN g a) j = thick a s - edge_distance g a s j.
  Proof.
    intros Ha Hj Hs. unfold depth, edge_distance. rewrite upright_sign by assumption. rewrite axis_range_length.
    pose proof (upright_points a Ha) as Hp.
    assert (Rabs (step_of g a) = sgn g a * step_of g a) as ->.
    { unfold sgn. destruct (Rlt_dec _ 0); [rewrite Rabs_left by lra|rewrite Rabs_pos_eq by lra]; ring. }
    assert (sgn g a * sgn g a = 1) as S2 by (unfold sgn; destruct (Rlt_dec _ 0); ring).
    destruct s as [|[|s]]; [| |lia].
    - rn. rewrite (upright_nth a 0) by (auto; lia). rewrite (upright_nth a j) by auto. cbn [INR].
      transitivity (thick a 0%nat * (sgn g a * sgn g a) - sgn g a * step_of g a * INR j); [ring|rewrite S2; ring].
    - rn. rewrite (upright_nth a j) by auto. rewrite (upright_nth a (points g a - 1)) by (auto; lia).
      rewrite (minus_INR (points g a - 1) j) by lia.
      transitivity (thick a 1%nat * (sgn g a * sgn g a) - sgn g a * step_of g a * (INR (points g a - 1) - INR j)); [ring|rewrite S2; ring].
  Qed.

  Lemma edge_distance_nonneg a s j : 0 <= edge_distance g a s j.
  Proof. unfold edge_distance. apply Rmult_le_pos; [apply Rabs_pos|apply pos_INR]. Qed.

  Definition contribution_value a s j : R := profile (fun d => kf a s (d * sgn g a)) (thick a s) (edge_distance g a s j).

  Lemma contribution_ok a s : (a < ndim RN g)%nat -> (s < 2)%nat ->
    exists c, contribution RN b a s (axis_range RN g a) = Ok c /\
      forall j, (j < points g a)%nat ->
        match c with None => 0 | Some f => f j end = contribution_value a s j.
  Proof.
    intros Ha Hs. unfold contribution. rewrite axis_range_length.
    set (inb := fun j : nat => nltb (nofZ RN 0) (depth RN b a s (axis_range RN g a) j)).
    assert (forall j, (j < points g a)%nat -> inb j = true <-> edge_distance g a s j < thick a s) as I.
    { intros j Hj. unfold inb. rewrite RN_nltb_true, depth_distance by assumption. rn. split; lra. }
    change (fun j : nat => nltb (nofZ RN 0) (depth RN b a s (axis_range RN g a) j)) with inb.
    destruct (existsb inb (seq 0 (points g a))) eqn:EX.
    - apply existsb_exists in EX as (j0 & Hj0 & Hin). apply in_seq in Hj0. apply I in Hin; [|lia].
      pose proof (edge_distance_nonneg a s j0).
      rewrite upright_sign by assumption.
      assert (sgn g a = 1 \/ sgn g a = -1) as S1 by (unfold sgn; destruct (Rlt_dec _ 0); auto).
      destruct (neqb RN (nmul RN (thick a s) (sgn g a)) (nofZ RN 0)) eqn:E0.
      { apply RN_neqb_true in E0. rn. destruct S1 as [S1|S1]; rewrite S1 in E0; lra. }
      eexists. split; [reflexivity|]. intros j Hj. cbv beta. unfold contribution_value, profile.
      fold (inb j). rewrite depth_distance by assumption.
      destruct (Rlt_dec (edge_distance g a s j) (thick a s)) as [L|L].
      + apply I in L as L'; [|assumption]. rewrite L'. unfold bnum. rn. rewrite Rmult_1_r. f_equal.
        destruct S1 as [S1|S1]; rewrite S1; field; lra.
      + destruct (inb j) eqn:L'; [apply I in L'; [contradiction|assumption]|]. unfold bnum. rn. ring.
    - eexists. split; [reflexivity|]. intros j Hj. unfold contribution_value, profile.
      destruct (Rlt_dec (edge_distance g a s j) (thick a s)) as [L|L]; [|reflexivity].
      apply I in L; [|assumption]. exfalso. assert (existsb inb (seq 0 (points g a)) = true); [|congruence].
      apply existsb_exists. exists j. split; [apply in_seq; lia|exact L].
  Qed.

  Lemma nmax_largest (x y : R) (P : R -> Prop) : largest x P -> largest (nmax (N := RN) x y) (fun z => P z \/ z = y).
  Proof.
    intros (H1 & H2 & H3). unfold nmax. destruct (nleb RN x y) eqn:E.
    - apply RN_nleb_true in E. split; [lra|]. split; [|right; right; reflexivity].
      intros z [Hz| ->]; [specialize (H2 z Hz); lra|lra].
    - apply RN_nleb_false in E. split; [lra|]. split; [|tauto].
      intros z [Hz| ->]; [auto|lra].
  Qed.
  Lemma largest_ext x (P Q : R -> Prop) :
    largest x P -> (forall y, P y -> Q y) -> (forall y, Q y -> P y \/ y <= 0) -> largest x Q.
  Proof.
    intros (H1 & H2 & H3) A B. split; [assumption|]. split.
    - intros y Hy. destruct (B y Hy); [auto|lra].
    - destruct H3; auto.
  Qed.

  Lemma extinction_fold m : (m <= ndim RN g)%nat ->
    exists kappa, fold_left (fun acc axis =>
      do kappa <- acc;
      if Nat.leb (ndim RN g) axis then Err IndexError
      else
        do front <- contribution RN b axis 0%nat (nth axis (map (axis_range RN g) (seq 0 (ndim RN g))) []);
        let kappa1 := match front with None => kappa | Some f => fun p => nmax (kappa p) (f (p axis)) end in
        do back <- contribution RN b axis 1%nat (nth axis (map (axis_range RN g) (seq 0 (ndim RN g))) []);
        Ok (match back with None => kappa1 | Some f => fun p => nmax (kappa1 p) (f (p axis)) end))
      (seq 0 m) (Ok (fun _ : nat -> nat => nofZ RN 0)) = Ok kappa /\
      forall p, inside g p -> largest (kappa p) (fun y => exists a s, (a < m)%nat /\ (s < 2)%nat /\ y = contribution_value a s (p a)).
  Proof.
    induction m as [|m IH]; intros Hm.
    - eexists. split; [reflexivity|]. intros p Hp. split; [rn; lra|]. split; [|left; reflexivity]. intros y (a & s & Ha & _). lia.
    - destruct IH as (k0 & E0 & H0); [lia|]. rewrite seq_S, fold_left_app, E0. cbn [fold_left bind]. rewrite Nat.add_0_l.
      destruct (Nat.leb_spec (ndim RN g) m); [lia|].
      rewrite nth_map_seq by lia.
      destruct (contribution_ok m 0) as (c0 & -> & C0); [lia|lia|]. destruct (contribution_ok m 1) as (c1 & -> & C1); [lia|lia|].
      cbn [bind]. eexists. split; [reflexivity|]. intros p Hp. specialize (H0 p Hp).
      specialize (C0 (p m) (Hp m H)). specialize (C1 (p m) (Hp m H)).
      set (k1 := match c0 with Some f => fun p => nmax (k0 p) (f (p m)) | None => k0 end).
      assert (largest (k1 p) (fun y => exists a s, (a < m)%nat /\ (s < 2)%nat /\ y = contribution_value a s (p a) \/
                 (a = m /\ s = 0%nat /\ y = contribution_value a s (p a)))) as H1.
      { unfold k1. destruct c0 as [f|].
        - eapply largest_ext; [apply nmax_largest; exact H0| |].
          + intros y [(a & s & X)| ->]; [exists a, s; tauto|]. exists m, 0%nat. right. rewrite C0. auto.
          + intros y (a & s & [X|(-> & -> & ->)]); [left; left; eauto|]. left; right. congruence.
        - eapply largest_ext; [exact H0| |].
          + intros y (a & s & X). exists a, s. tauto.
          + intros y (a & s & [X|(-> & -> & ->)]); [left; eauto|]. right. rewrite <- C0. lra. }
      destruct c1 as [f|].
      + eapply largest_ext; [apply nmax_largest; exact H1| |].
        * intros y [(a & s & [X|X])| ->].
          -- exists a, s. repeat split; try tauto; lia.
          -- exists a, s. repeat split; try tauto; lia.
          -- exists m, 1%nat. rewrite C1. repeat split; lia.
        * intros y (a & s & Ha & Hs & ->). left. destruct (Nat.eq_dec a m) as [->|].
          -- destruct s as [|[|s]]; [left; exists m, 0%nat; tauto|right; congruence|lia].
          -- left. exists a, s. left. repeat split; lia || auto.
      + eapply largest_ext; [exact H1| |].
        * intros y (a & s & [X|X]); exists a, s; repeat split; try tauto; lia.
        * intros y (a & s & Ha & Hs & ->). destruct (Nat.eq_dec a m) as [->|].
          -- destruct s as [|[|s]]; [left; exists m, 0%nat; tauto|right; rewrite <- C1; lra|lia].
          -- left. exists a, s. left. repeat split; lia || auto.
  Qed.

  Lemma extinction_largest : exists kappa, extinction RN b = Ok kappa /\
    forall p, inside g p -> largest (kappa p) (fun y => exists a s, (a < ndim RN g)%nat /\ (s < 2)%nat /\ y = contribution_value a s (p a)).
  Proof.
    unfold extinction. rewrite ranges_ok. cbn [bind]. rewrite map_length, seq_length. apply extinction_fold. lia.
  Qed.

End Straight.

Section Upright.
  Variable b : bound RN.
  Notation g := (b_grid RN b).
  Notation thick := (thickness RN b).
  Hypothesis U0 : upright g.
  Lemma between_iff : exists w, between RN b = Ok w /\
    forall p, inside g p -> (w p = true <-> forall a s, (a < ndim RN g)%nat -> (s < 2)%nat -> thick a s <= edge_distance g a s (p a)).
Proof.
    pose proof (upright_straight _ U0) as U. unfold between. rewrite ranges_seq by (auto; lia). cbn [bind]. eexists. split; [reflexivity|]. intros p Hp.
    rewrite forallb_forall.
    assert (forall a, (a < ndim RN g)%nat -> (between_axis RN b a (nth a (map (axis_range RN g) (seq 0 (ndim RN g))) []) (p a) = true <->
       thick a 0%nat <= edge_distance g a 0 (p a) /\ thick a 1%nat <= edge_distance g a 1 (p a))) as A.
    { intros a Ha. rewrite nth_map_seq by assumption. unfold between_axis. rewrite andb_true_iff, !RN_nleb_true, axis_range_length. rn.
      pose proof (upright_points b U a Ha). specialize (Hp a Ha).
      rewrite (upright_nth b U a 0), (upright_nth b U a (p a)), (upright_nth b U a (points g a - 1)) by (auto; lia). unfold edge_distance.
      assert (Rabs (step_of g a) = step_of g a) as ->. { destruct U0 as (_ & _ & X). apply Rabs_pos_eq. destruct (X a Ha). lra. }
      rewrite (minus_INR (points g a - 1) (p a)) by lia. cbn [INR]. split; intros [? ?]; split; nra. }
    split.
    - intros H a s Ha Hs. specialize (H a ltac:(apply in_seq; lia)). apply A in H; [|assumption].
      destruct s as [|[|s]]; [tauto|tauto|lia].
    - intros H a Ha. apply in_seq in Ha. apply A; [lia|]. split; apply H; lia.
  Qed.
End Upright.

(** From the arguments of the constructor. *)
Lemma pick_map {A B} (F : A -> B) (l : list A) i h : pick (map F l) i h <-> exists x, pick l i x /\ h = F x.
Proof.
  unfold pick. destruct l as [|y [|z l]].
  - cbn. destruct i; split; [discriminate|intros (x & H & _); discriminate|discriminate|intros (x & H & _); discriminate].
  - cbn. split; [intros ->; eauto|intros (x & -> & ->); reflexivity].
  - change (map F (y :: z :: l)) with (F y :: F z :: map F l). change (F y :: F z :: map F l) with (map F (y :: z :: l)).
    cbv beta iota. rewrite nth_error_map. destruct (nth_error (y :: z :: l) i) as [x|]; cbn.
    + split; [intros H; injection H as <-; eauto|intros (x' & H & ->); injection H as <-; reflexivity].
    + split; [discriminate|intros (x' & H & _); discriminate].
Qed.
Lemma sided_map {A B} (F : A -> B) (a : sides_arg A) axis side h :
  sided (sides_map F a) axis side h <-> exists x, sided a axis side x /\ h = F x.
Proof.
  destruct a as [y|l|rows]; cbn [sides_map sided].
  - split; [intros ->; eauto|intros (x & -> & ->); reflexivity].
  - apply pick_map.
  - split.
    + intros (row & H1 & H2). apply pick_map in H1 as (r & H1 & ->). apply pick_map in H2 as (x & H2 & ->). eauto.
    + intros (x & (row & H1 & H2) & ->). exists (map F row). split; apply pick_map; eauto.
Qed.

Theorem absorbing_created g t f : broadcastable (ndim RN g) t -> broadcastable (ndim RN g) f ->
  exists b, absorbing_bound RN g t f = Ok b.
Proof.
  intros H1 H2. unfold absorbing_bound.
  destruct (broadcast_sides_ok _ t (nofZ RN 0) H1) as (t' & ->). cbn [bind].
  destruct (broadcast_sides_ok _ f (fun x => x) H2) as (f' & ->). cbn [bind]. eauto.
Qed.
Lemma broadcastable_map {A B} (F : A -> B) n a : broadcastable n a -> broadcastable n (sides_map F a).
Proof.
  destruct a as [y|l|rows]; cbn; rewrite ?map_length; auto.
  intros (H & c & Hc & Hne & Hr). split; [auto|]. exists c. split; [auto|]. split.
  - destruct rows; [congruence|discriminate].
  - intros r Hin. apply in_map_iff in Hin as (r' & <- & Hin). rewrite map_length. auto.
Qed.
Theorem linear_created g t k : broadcastable (ndim RN g) t -> broadcastable (ndim RN g) k ->
  exists b, linear_bound RN g t k = Ok b.
Proof. intros H1 H2. apply absorbing_created; [assumption|]. apply broadcastable_map. assumption. Qed.

Lemma absorbing_inv g t f b : absorbing_bound RN g t f = Ok b ->
  b_grid RN b = g /\
  (forall a s x, (a < ndim RN g)%nat -> (s < 2)%nat -> sided t a s x <-> x = thickness RN b a s) /\
  (forall a s h, (a < ndim RN g)%nat -> (s < 2)%nat -> sided f a s h <-> h = kappa_function RN b a s).
Proof.
  unfold absorbing_bound. intros H. apply bind_ok in H as (t' & Ht & H). apply bind_ok in H as (f' & Hf & H).
  injection H as <-. cbn. split; [reflexivity|]. split; intros; eapply broadcast_sides_sided; eassumption.
Qed.

Definition extinction_values g t f (p : nat -> nat) (y : R) : Prop :=
  exists a s x h, (a < ndim RN g)%nat /\ (s < 2)%nat /\ sided t a s x /\ sided f a s h /\ y = profile h x (edge_distance g a s (p a)).
Theorem absorbing_extinction g t f b : upright g -> absorbing_bound RN g t f = Ok b ->
  exists kappa, extinction RN b = Ok kappa /\
    forall p, inside g p -> largest (kappa p) (fun y => exists a s x h, (a < ndim RN g)%nat /\ (s < 2)%nat /\
      sided t a s x /\ sided f a s h /\ y = profile h x (edge_distance g a s (p a))).
Proof.
  intros U H. destruct (absorbing_inv _ _ _ _ H) as (E & Ht & Hf). subst g.
  destruct (extinction_largest b (upright_straight _ U)) as (kappa & Ek & Hk). exists kappa. split; [assumption|]. intros p Hp.
  assert (forall a s, (a < ndim RN (b_grid RN b))%nat -> contribution_value b a s (p a) =
    profile (kappa_function RN b a s) (thickness RN b a s) (edge_distance (b_grid RN b) a s (p a))) as V.
  { intros a s Ha. unfold contribution_value, profile. destruct (Rlt_dec _ _); [|reflexivity]. f_equal. unfold sgn.
    destruct U as (_ & _ & X). destruct (X a Ha). destruct (Rlt_dec _ 0); [lra|]. apply Rmult_1_r. }
  eapply largest_ext; [exact (Hk p Hp)| |].
  - intros y (a & s & Ha & Hs & ->). rewrite V by assumption. exists a, s, (thickness RN b a s), (kappa_function RN b a s).
    repeat split; auto; [apply Ht|apply Hf]; auto.
  - intros y (a & s & x & h & Ha & Hs & Hx & Hh & ->). left. exists a, s. repeat split; auto.
    apply Ht in Hx; auto. apply Hf in Hh; auto. subst. rewrite V by assumption. reflexivity.
Qed.
Theorem linear_extinction g t k b : upright g -> linear_bound RN g t k = Ok b ->
  exists kappa, extinction RN b = Ok kappa /\
    forall p, inside g p -> largest (kappa p) (fun y => exists a s x kmax, (a < ndim RN g)%nat /\ (s < 2)%nat /\
      sided t a s x /\ sided k a s kmax /\ y = profile (fun d => kmax * d) x (edge_distance g a s (p a))).
Proof.
  intros U H. destruct (absorbing_extinction _ _ _ _ U H) as (kappa & Ek & Hk). exists kappa. split; [assumption|].
  intros p Hp. eapply largest_ext; [exact (Hk p Hp)| |].
  - intros y (a & s & x & h & Ha & Hs & Hx & Hh & ->). apply sided_map in Hh as (kmax & Hh & ->).
    exists a, s, x, kmax. repeat split; auto.
  - intros y (a & s & x & kmax & Ha & Hs & Hx & Hh & ->). left. exists a, s, x, (fun d => kmax * d).
    repeat split; auto. apply sided_map. eauto.
Qed.

Lemma profile_linear_bounds kmax x d : 0 <= kmax -> 0 <= d ->
  0 <= profile (fun r => kmax * r) x d <= kmax /\ (d < x -> 0 < kmax -> 0 < profile (fun r => kmax * r) x d) /\
  (x <= d -> profile (fun r => kmax * r) x d = 0) /\ (0 < x -> profile (fun r => kmax * r) x 0 = kmax).
Proof.
  intros Hk Hd. unfold profile. split; [|split; [|split]].
  - destruct (Rlt_dec d x); [|lra].
    assert (0 < (x - d) / x) by (apply Rdiv_lt_0_compat; lra).
    assert ((x - d) / x <= 1) by (unfold Rdiv; apply (Rmult_le_reg_r x); [lra|]; rewrite Rmult_assoc, Rinv_l by lra; lra). nra.
  - intros Hx Hp. destruct (Rlt_dec d x); [|lra].
    assert (0 < (x - d) / x) by (apply Rdiv_lt_0_compat; lra). nra.
  - intros Hx. destruct (Rlt_dec d x); [lra|reflexivity].
  - intros Hx. destruct (Rlt_dec 0 x); [|lra]. field. lra.
Qed.
Lemma profile_linear_mono kmax x d d' : 0 <= kmax -> 0 <= d' <= d ->
  profile (fun r => kmax * r) x d <= profile (fun r => kmax * r) x d'.
Proof.
  intros Hk Hd. unfold profile. destruct (Rlt_dec d x), (Rlt_dec d' x); try lra.
  - apply Rmult_le_compat_l; [lra|]. apply Rmult_le_compat_r; [|lra]. left. apply Rinv_0_lt_compat. lra.
  - assert (0 < (x - d') / x) by (apply Rdiv_lt_0_compat; lra). nra.
Qed.

Lemma sided_exists {A} n (t : sides_arg A) d f a s : broadcast_sides n t d = Ok f -> (a < n)%nat -> (s < 2)%nat -> sided t a s (f a s).
Proof. intros H Ha Hs. eapply broadcast_sides_sided; eauto. Qed.

Theorem linear_bound_shape g t k b :
  upright g -> linear_bound RN g t k = Ok b ->
  (forall a s kmax, (a < ndim RN g)%nat -> (s < 2)%nat -> sided k a s kmax -> 0 <= kmax) ->
  exists kappa within outside,
    extinction RN b = Ok kappa /\ between RN b = Ok within /\ beyond RN b = Ok outside /\
    forall p, inside g p ->
      (within p = true <-> forall a s x, (a < ndim RN g)%nat -> (s < 2)%nat -> sided t a s x -> x <= edge_distance g a s (p a)) /\
      outside p = negb (within p) /\
      0 <= kappa p /\
      (forall K, 0 <= K -> (forall a s kmax, (a < ndim RN g)%nat -> (s < 2)%nat -> sided k a s kmax -> kmax <= K) -> kappa p <= K) /\
      (within p = true -> kappa p = 0) /\
      ((forall a s kmax, (a < ndim RN g)%nat -> (s < 2)%nat -> sided k a s kmax -> 0 < kmax) -> outside p = true -> 0 < kappa p) /\
      (forall a s x kmax, (a < ndim RN g)%nat -> (s < 2)%nat -> sided t a s x -> sided k a s kmax ->
         0 < x -> edge_distance g a s (p a) = 0 -> kmax <= kappa p) /\
      (forall a s q, (a < ndim RN g)%nat -> (s < 2)%nat -> inside g q -> (forall i, i <> a -> q i = p i) ->
         edge_distance g a s (q a) <= edge_distance g a s (p a) ->
         (forall x, sided t a (1 - s) x -> x <= edge_distance g a (1 - s) (p a)) -> kappa p <= kappa q).
Proof.
  intros U H Hk0. destruct (linear_extinction _ _ _ _ U H) as (kappa & Ek & Hk).
  destruct (absorbing_inv _ _ _ _ H) as (E & Ht & Hf).
  assert (upright (b_grid RN b)) as U' by (rewrite E; exact U).
  destruct (between_iff b U') as (w & Ew & Hw). rewrite E in Hw.
  exists kappa, w, (fun p => negb (w p)). split; [assumption|]. split; [assumption|]. split; [unfold beyond; rewrite Ew; reflexivity|].
  intros p Hp. specialize (Hw p Hp).
  assert (w p = true <-> forall a s x, (a < ndim RN g)%nat -> (s < 2)%nat -> sided t a s x -> x <= edge_distance g a s (p a)) as Hw'.
  { rewrite Hw. split.
    - intros X a s x Ha Hs Hx. apply Ht in Hx; auto. subst x. auto.
    - intros X a s Ha Hs. apply X; auto. apply Ht; auto. }
  assert (forall a s j, 0 <= edge_distance g a s j) as Hd.
  { intros. unfold edge_distance. apply Rmult_le_pos; [apply Rabs_pos|apply pos_INR]. }
  assert (forall a s, (a < ndim RN g)%nat -> (s < 2)%nat -> exists kmax, sided k a s kmax) as Hex.
  { intros a s Ha Hs. specialize (proj2 (Hf a s _ Ha Hs) eq_refl) as X. apply sided_map in X as (kmax & X & _). eauto. }
  destruct (Hk p Hp) as (P1 & P2 & P3).
  split; [exact Hw'|]. split; [reflexivity|]. split; [exact P1|]. split; [|split; [|split; [|split]]].
  - intros K HK0 HK. destruct P3 as [->|(a & s & x & kmax & Ha & Hs & Hx & Hkm & ->)]; [exact HK0|].
    eapply Rle_trans; [|apply (HK a s kmax); auto]. apply profile_linear_bounds; [eapply Hk0; eauto|apply Hd].
  - intros X. rewrite Hw' in X. destruct P3 as [->|(a & s & x & kmax & Ha & Hs & Hx & Hkm & ->)]; [reflexivity|].
    destruct (profile_linear_bounds kmax x (edge_distance g a s (p a))) as (_ & _ & Q & _); [eapply Hk0; eauto|apply Hd|]. apply Q. apply X; auto.
  - intros HK X. destruct P1 as [P1|P1]; [exact P1|]. exfalso.
    assert (w p = true) as C; [|rewrite C in X; discriminate]. apply Hw'. intros a s x Ha Hs Hx.
    destruct (Rle_dec x (edge_distance g a s (p a))) as [L|L]; [exact L|]. exfalso.
    destruct (Hex a s Ha Hs) as (kmax & Hkm).
    assert (profile (fun d => kmax * d) x (edge_distance g a s (p a)) <= kappa p) as Q by (apply P2; exists a, s, x, kmax; auto).
    specialize (HK a s kmax Ha Hs Hkm).
    destruct (profile_linear_bounds kmax x (edge_distance g a s (p a))) as (_ & Q2 & _); [lra|apply Hd|].
    specialize (Q2 ltac:(lra) HK). lra.
  - intros a s x kmax Ha Hs Hx Hkm Hpos Hz. apply P2. exists a, s, x, kmax. repeat split; auto.
    rewrite Hz. symmetry. destruct (profile_linear_bounds kmax x 0) as (_ & _ & _ & Q); [eapply Hk0; eauto|lra|exact (Q Hpos)].
  - intros a s q Ha Hs Hq Heq Hle Hfar. destruct (Hk q Hq) as (Q1 & Q2 & _).
    destruct P3 as [->|(a' & s' & x & kmax & Ha' & Hs' & Hx & Hkm & Ey)]; [exact Q1|].
    assert (0 <= kmax) as K0 by exact (Hk0 a' s' kmax Ha' Hs' Hkm).
    destruct (Nat.eq_dec a' a) as [->|Na].
    + destruct (Nat.eq_dec s' s) as [->|Ns].
      * rewrite Ey. eapply Rle_trans; [apply profile_linear_mono; [exact K0|split; [apply Hd|exact Hle]]|].
        apply Q2. exists a, s, x, kmax. auto.
      * assert (s' = 1 - s)%nat as -> by lia. rewrite Ey.
        replace (profile (fun d => kmax * d) x (edge_distance g a (1 - s) (p a))) with 0; [exact Q1|].
        symmetry. destruct (profile_linear_bounds kmax x (edge_distance g a (1 - s) (p a))) as (_ & _ & Q & _); [exact K0|apply Hd|]. apply Q. apply Hfar. exact Hx.
    + apply Q2. exists a', s', x, kmax. rewrite (Heq a' Na). auto.
Qed.

(** Violations. *)
Theorem linear_bound_downward g t k b :
  straight g -> (forall a, (a < ndim RN g)%nat -> step_of g a < 0) -> linear_bound RN g t k = Ok b ->
  (forall a s kmax, (a < ndim RN g)%nat -> (s < 2)%nat -> sided k a s kmax -> 0 <= kmax) ->
  exists kappa, extinction RN b = Ok kappa /\ forall p, inside g p -> kappa p = 0.
Proof.
  intros U Hneg H Hk0. destruct (absorbing_inv _ _ _ _ H) as (E & Ht & Hf). subst g.
  destruct (extinction_largest b U) as (kappa & Ek & Hk). exists kappa. split; [assumption|]. intros p Hp.
  destruct (Hk p Hp) as (P1 & _ & [P3|(a & s & Ha & Hs & P3)]); [exact P3|].
  specialize (proj2 (Hf a s _ Ha Hs) eq_refl) as X. apply sided_map in X as (kmax & X & Y).
  specialize (Hk0 a s kmax Ha Hs X). revert P3. unfold contribution_value, profile. rewrite Y. unfold sgn.
  specialize (Hneg a Ha). destruct (Rlt_dec (step_of _ a) 0); [|lra]. rn.
  pose proof (edge_distance_nonneg b a s (p a)).
  destruct (Rlt_dec _ _); [|auto].
  assert (0 < (thickness RN b a s - edge_distance (b_grid RN b) a s (p a)) / thickness RN b a s) by (apply Rdiv_lt_0_compat; lra).
  intros P3. nra.
Qed.

Theorem between_downward b a p w :
  straight (b_grid RN b) -> between RN b = Ok w -> (a < ndim RN (b_grid RN b))%nat -> step_of (b_grid RN b) a < 0 ->
  0 <= thickness RN b a 0%nat -> inside (b_grid RN b) p -> (0 < p a)%nat -> w p = false.
Proof.
  intros U Ew Ha Hs Ht Hp Hpa. unfold between in Ew. rewrite ranges_seq in Ew by (auto; lia). injection Ew as <-.
  apply not_true_is_false. intros X. rewrite forallb_forall in X. specialize (X a ltac:(apply in_seq; lia)).
  rewrite nth_map_seq in X by assumption. unfold between_axis in X. apply andb_prop in X as (X & _). apply RN_nleb_true in X. rn.
  specialize (Hp a Ha). rewrite (upright_nth b U a 0), (upright_nth b U a (p a)) in X by (auto; lia). cbn [INR] in X.
  assert (0 < INR (p a)) by (apply lt_0_INR; lia). nra.
Qed.

Lemma fold_bind_err {A B} (F : B -> A -> result A) l e : fold_left (fun acc a => do x <- acc; F a x) l (Err e) = Err e.
Proof. induction l; [reflexivity|assumption]. Qed.
Theorem scalar_grid_extinction b :
  regular (b_grid RN b) -> multidimensional RN (b_grid RN b) = false -> (2 <= points (b_grid RN b) 0)%nat ->
  extinction RN b = Err IndexError.
Proof.
  intros (Hs & Hm & Hsh) M H2. specialize (Hm M). unfold extinction, ranges. rewrite M. fold (points (b_grid RN b) 0).
  assert (forall m n, (m + n <= points (b_grid RN b) 0)%nat ->
    fold_right (fun i rest => do x <- getitem_axis RN (b_grid RN b) (Z.of_nat i); do l <- rest; Ok (x :: l)) (Ok []) (seq m n)
    = Ok (map (fun j => [nth j (axis_range RN (b_grid RN b) 0) 0]) (seq m n))) as R.
  { intros m n. revert m. induction n as [|n IH]; intros m Hmn; [reflexivity|]. cbn [seq fold_right map].
    rewrite IH by lia. unfold getitem_axis. rewrite M. specialize (Hsh 0%nat ltac:(lia)).
    replace (shape RN (b_grid RN b) 0%nat) with (Z.of_nat (points (b_grid RN b) 0)) by (unfold points; lia).
    rewrite norm_index_nat by lia. reflexivity. }
  rewrite R by lia. cbn [bind]. rewrite map_length, seq_length.
  destruct (points (b_grid RN b) 0) as [|[|n]] eqn:EP; [lia|lia|]. clear R.
  cbn [seq fold_left bind map nth]. rewrite Hm. cbn [Nat.leb].
  assert (forall s, (s < 2)%nat -> exists c, contribution RN b 0 s [nth 0 (axis_range RN (b_grid RN b) 0) 0] = Ok c) as C.
  { intros s Hs2. unfold contribution. cbn [length seq existsb]. rewrite orb_false_r.
    destruct (nltb _ _) eqn:E; [|eauto]. destruct (neqb RN _ _) eqn:E0; [|eauto]. exfalso.
    apply RN_nltb_true in E. apply RN_neqb_true in E0. revert E. unfold depth. rewrite E0.
    destruct s as [|[|s]]; [| |lia]; cbn [nth length Nat.sub]; rn; lra. }
  destruct (C 0%nat) as (c0 & ->); [lia|]. destruct (C 1%nat) as (c1 & ->); [lia|]. cbn [bind].
  apply fold_bind_err.
Qed.

(** Permittivity and susceptibility. *)
Theorem absorbing_permittivity_ok (bg : C) (kappa : R) :
  exists n : C, (n * n = bg)%C /\ 0 <= fst n /\
    electric_permittivity bg kappa = ((n + Ci * kappa) * (n + Ci * kappa))%C /\
    absorbing_susceptibility bg kappa = (electric_permittivity bg kappa - bg)%C /\
    (kappa = 0 -> absorbing_susceptibility bg kappa = 0%R) /\
    snd (absorbing_susceptibility bg kappa) = 2 * fst n * kappa /\
    fst (absorbing_susceptibility bg kappa) = - 2 * snd n * kappa - kappa * kappa.
Proof.
  exists (csqrt bg). pose proof (csqrt_sq bg) as Q. split; [exact Q|]. split; [apply csqrt_Re|].
  unfold electric_permittivity, absorbing_susceptibility, absorbing_permittivity. set (n := csqrt bg) in *.
  split; [ring|]. split; [ring|].
  assert (snd ((n + Ci * kappa) * (n + Ci * kappa) - bg)%C = 2 * fst n * kappa /\
          fst ((n + Ci * kappa) * (n + Ci * kappa) - bg)%C = - 2 * snd n * kappa - kappa * kappa) as [H1 H2].
  { rewrite <- Q. destruct n as [x y]. cbn. split; ring. }
  split; [|auto]. intros ->. apply C_eq; rewrite ?H1, ?H2; cbn; ring.
Qed.
Theorem absorbing_no_gain (bg : C) (kappa : R) :
  0 <= kappa -> 0 <= snd (absorbing_susceptibility bg kappa) /\ (0 <= snd bg -> 0 <= snd (electric_permittivity bg kappa)).
Proof.
  intros Hk. destruct (absorbing_permittivity_ok bg kappa) as (n & Q & Hn & E & S & _ & I & _).
  assert (0 <= snd (absorbing_susceptibility bg kappa)) as H by (rewrite I; nra).
  split; [exact H|]. intros Hb. unfold electric_permittivity. cbn [snd Cplus]. unfold Cplus. cbn [snd]. lra.
Qed.
