(** Proofs about the modes of a scattering matrix. *)
From Coq Require Import Reals List Arith Bool ZArith Lia Lra Sorting.Sorted ZifyNat.
Require Import Verif.Base Verif.Cplx Verif.CSum Verif.Field Verif.Fourier_Model Verif.Fourier_Spec Verif.Fourier_Proofs Verif.Vec_Model Verif.Matrix_Model Verif.Modes_Model Verif.Modes_Spec.
Import ListNotations.
Local Open Scope R_scope.
Local Open Scope C_scope.
Ltac Zify.zify_post_hook ::= Z.div_mod_to_equations.

(** ** Indices *)
Lemma indices_inside s q : In q (indices s) <-> inside s q.
Proof.
  revert q. induction s as [|n s IH]; intros q; cbn [indices].
  - split; [intros [<-|[]]; constructor|]. intros H. inversion H. left. reflexivity.
  - rewrite in_flat_map. split.
    + intros (i & Hi & H). apply in_map_iff in H as (r & <- & Hr). apply in_seq in Hi. constructor; [lia|apply IH; exact Hr].
    + intros H. inversion H as [|? i ? r Hi Hr]; subst. exists i. split; [apply in_seq; lia|]. apply in_map, IH, Hr.
Qed.
Lemma unshift_index n i : (i < n)%nat -> k_index n (Z.to_nat ((Z.of_nat i - Z.of_nat (n / 2)) mod Z.of_nat n)) = (Z.of_nat i - Z.of_nat (n / 2))%Z.
Proof.
  intros H. unfold k_index. assert (Z.of_nat (n / 2) = Z.of_nat n / 2)%Z as -> by (apply (Nat2Z.inj_div n 2)).
  destruct (Z_lt_le_dec (Z.of_nat i) (Z.of_nat n / 2)) as [L|L].
  - assert ((Z.of_nat i - Z.of_nat n / 2) mod Z.of_nat n = Z.of_nat i - Z.of_nat n / 2 + Z.of_nat n)%Z as ->.
    { symmetry. apply (Z.mod_unique _ _ (-1)); lia. }
    destruct (Nat.ltb_spec (2 * Z.to_nat (Z.of_nat i - Z.of_nat n / 2 + Z.of_nat n)) n); lia.
  - rewrite Z.mod_small by lia. destruct (Nat.ltb_spec (2 * Z.to_nat (Z.of_nat i - Z.of_nat n / 2)) n); lia.
Qed.
Lemma unshift_inside s q : inside s q -> inside s (unshift s q).
Proof. induction 1 as [|n i s q Hi _ IH]; cbn [unshift]; constructor; [|exact IH]. pose proof (Z.mod_pos_bound (Z.of_nat i - Z.of_nat (n / 2)) (Z.of_nat n)). lia. Qed.
Fixpoint reshift (s p : list nat) : list nat :=
  match s, p with n :: s', i :: p' => Z.to_nat (k_index n i + Z.of_nat (n / 2)) :: reshift s' p' | _, _ => [] end.
Lemma k_index_range n i : (i < n)%nat -> (0 <= k_index n i + Z.of_nat (n / 2) < Z.of_nat n)%Z.
Proof. intros H. unfold k_index. assert (Z.of_nat (n / 2) = Z.of_nat n / 2)%Z as -> by (apply (Nat2Z.inj_div n 2)). destruct (Nat.ltb_spec (2 * i) n); lia. Qed.
Lemma k_index_inj n i j : (i < n)%nat -> (j < n)%nat -> k_index n i = k_index n j -> i = j.
Proof. unfold k_index. intros Hi Hj. destruct (Nat.ltb_spec (2 * i) n), (Nat.ltb_spec (2 * j) n); lia. Qed.
Lemma reshift_inside s p : inside s p -> inside s (reshift s p).
Proof. induction 1 as [|n i s p Hi _ IH]; cbn [reshift]; constructor; [|exact IH]. pose proof (k_index_range n i Hi). lia. Qed.
Lemma unshift_reshift s p : inside s p -> unshift s (reshift s p) = p.
Proof.
  induction 1 as [|n i s p Hi _ IH]; [reflexivity|]. cbn [unshift reshift]. rewrite IH. f_equal. pose proof (k_index_range n i Hi) as K.
  apply (k_index_inj n); [pose proof (Z.mod_pos_bound (Z.of_nat (Z.to_nat (k_index n i + Z.of_nat (n / 2))) - Z.of_nat (n / 2)) (Z.of_nat n)); lia|exact Hi|].
  rewrite unshift_index by lia. lia.
Qed.
Lemma signed_unshift s q : inside s q -> signed s (unshift s q) = (fix go s q := match s, q with n :: s', i :: q' => (Z.of_nat i - Z.of_nat (n / 2))%Z :: go s' q' | _, _ => [] end) s q.
Proof. induction 1 as [|n i s q Hi _ IH]; [reflexivity|]. cbn [unshift signed]. rewrite IH, unshift_index by exact Hi. reflexivity. Qed.
Lemma signed_inj s p q : inside s p -> inside s q -> signed s p = signed s q -> p = q.
Proof.
  intros Hp. revert q. induction Hp as [|n i s p Hi _ IH]; intros q Hq E; inversion Hq as [|? j ? r Hj Hr]; subst; [reflexivity|]. cbn [signed] in E. injection E as E1 E2.
  f_equal; [apply (k_index_inj n); assumption|apply IH; assumption].
Qed.
Lemma signed_length s p : inside s p -> length (signed s p) = length s.
Proof. induction 1 as [|n i s p _ _ IH]; [reflexivity|]. cbn. rewrite IH. reflexivity. Qed.

(** ** Propagating modes *)
Fixpoint ksum (s : list nat) (st : list R) (q : list nat) : R :=
  match s, st, q with n :: s', d :: st', i :: q' => (k_centred n d i * k_centred n d i + ksum s' st' q')%R | _, _, _ => 0%R end.
Lemma ksum_nonneg s st q : (0 <= ksum s st q)%R.
Proof. revert st q. induction s as [|n s IH]; intros [|d st] [|i q]; cbn [ksum]; try lra. specialize (IH st q). nra. Qed.
Lemma Rltb_spec x y : Rltb x y = true <-> (x < y)%R.
Proof. unfold Rltb. destruct (Rlt_dec x y); split; intros; congruence || tauto. Qed.
Lemma abs_sq k a : (Rabs k < a)%R -> (k * k < a * a)%R.
Proof. intros H. pose proof (Rabs_pos k). assert (Rabs k * Rabs k = k * k)%R as <- by (rewrite <- Rabs_mult; apply Rabs_pos_eq; nra). nra. Qed.
Lemma propagates_sound s st q k_abs tol : (0 < k_abs)%R -> (0 <= tol)%R -> propagates k_abs tol s st q = true -> (ksum s st q < k_abs * k_abs)%R.
Proof.
  revert st q k_abs. induction s as [|n s IH]; intros [|d st] [|i q] k_abs K T H; cbn [ksum]; try nra.
  cbn [propagates] in H. apply andb_true_iff in H as [H1 H2]. apply Rltb_spec in H1. set (k := k_centred n d i) in *.
  assert (k * k < k_abs * k_abs)%R as H3 by (apply abs_sq; lra).
  rewrite Rmax_left in H2 by lra. apply IH in H2; [|apply sqrt_lt_R0; lra|exact T]. rewrite sqrt_sqrt in H2 by lra. lra.
Qed.
Lemma propagates_complete s st q k_abs tol K : (0 < k_abs <= K)%R -> (0 <= tol)%R -> (2 * K * tol < k_abs * k_abs - ksum s st q)%R -> propagates k_abs tol s st q = true.
Proof.
  revert st q k_abs. induction s as [|n s IH]; intros [|d st] [|i q] k_abs HK T H; cbn [propagates]; try reflexivity.
  cbn [ksum] in H. set (k := k_centred n d i) in *. pose proof (ksum_nonneg s st q). pose proof (Rabs_pos k) as A0. assert (Rabs k * Rabs k = k * k)%R as A2 by (rewrite <- Rabs_mult; apply Rabs_pos_eq; nra).
  assert (0 <= 2 * K * tol)%R by nra. apply andb_true_iff. split.
  - apply Rltb_spec. destruct (Rlt_le_dec (Rabs k) (k_abs - tol)) as [L|L]; [exact L|exfalso]. assert (Rabs k < k_abs)%R by nra. nra.
  - rewrite Rmax_left by nra. apply IH; [split; [apply sqrt_lt_R0; nra|]|exact T|rewrite sqrt_sqrt by nra; lra].
    apply Rle_trans with k_abs; [|lra]. apply Rle_trans with (sqrt (k_abs * k_abs)); [apply sqrt_le_1_alt; nra|rewrite sqrt_square; lra].
Qed.
Lemma rsum_shift n f : rsum (Datatypes.S n) f = (f 0%nat + rsum n (fun i => f (Datatypes.S i)))%R.
Proof. induction n as [|n IH]; [cbn; lra|]. change (rsum (Datatypes.S (Datatypes.S n)) f) with (rsum (Datatypes.S n) f + f (Datatypes.S n))%R. rewrite IH. cbn [rsum]. lra. Qed.
Lemma k_axis_unshift n d i : (i < n)%nat -> k_axis n d (Z.to_nat ((Z.of_nat i - Z.of_nat (n / 2)) mod Z.of_nat n)) = k_centred n d i.
Proof. intros H. unfold k_axis, k_centred. rewrite unshift_index by exact H. reflexivity. Qed.
Lemma k2_unshift s st q : inside s q -> length st = length s -> k2 {| rshape := s; rstep := st |} (unshift s q) = ksum s st q.
Proof.
  intros H. revert st. induction H as [|n i s q Hi _ IH]; intros st L; destruct st as [|d st]; try discriminate; [reflexivity|].
  unfold k2, rndim. cbn [rshape length]. rewrite rsum_shift. cbn [ksum unshift]. unfold kvec at 1 2. cbn [nth rshape rstep].
  rewrite k_axis_unshift by exact Hi. f_equal. injection L as L. rewrite <- (IH st L). reflexivity.
Qed.
Lemma raster_eta g : {| rshape := rshape g; rstep := rstep g |} = g.
Proof. destruct g. reflexivity. Qed.
Lemma modes_sound o m : valid o -> In m (modes o) -> inside (shape_of o) m /\ (k2 (transverse o) m < wavenumber o * wavenumber o)%R.
Proof.
  intros (V1 & V2 & V3 & V4 & V5 & V6) H. unfold modes in H. apply in_map_iff in H as (q & <- & H). apply filter_In in H as [H1 H2]. apply indices_inside in H1.
  split; [apply unshift_inside; exact H1|]. rewrite <- (raster_eta (transverse o)). unfold shape_of in *. rewrite k2_unshift by assumption.
  apply propagates_sound in H2; assumption.
Qed.
Lemma modes_complete o m : valid o -> inside (shape_of o) m -> (k2 (transverse o) m < wavenumber o * wavenumber o - 2 * wavenumber o * tolerance o)%R -> In m (modes o).
Proof.
  intros (V1 & V2 & V3 & V4 & V5 & V6) H K. unfold modes. apply in_map_iff. exists (reshift (shape_of o) m). split; [apply unshift_reshift; exact H|].
  apply filter_In. split; [apply indices_inside, reshift_inside, H|]. apply propagates_complete with (K := wavenumber o); [lra|exact V6|].
  unfold shape_of in *. rewrite <- (k2_unshift (rshape (transverse o))); [|apply reshift_inside; exact H|exact V1]. rewrite unshift_reshift by exact H. rewrite raster_eta. lra.
Qed.
Lemma no_modes o : (wavenumber o <= tolerance o)%R -> shape_of o <> [] -> length (rstep (transverse o)) = length (shape_of o) -> modes o = [].
Proof.
  intros H N L. unfold modes. unfold shape_of in *. destruct (rshape (transverse o)) as [|n s]; [contradiction|]. destruct (rstep (transverse o)) as [|d st]; [discriminate|].
  assert (forall l, (forall q, In q l -> exists i r, q = i :: r) -> filter (propagates (wavenumber o) (tolerance o) (n :: s) (d :: st)) l = []) as K.
  { induction l as [|q l IH]; intros Hl; [reflexivity|]. cbn [filter]. destruct (Hl q (or_introl eq_refl)) as (i & r & ->). cbn [propagates].
    destruct (Rltb (Rabs (k_centred n d i)) (wavenumber o - tolerance o)) eqn:E; [apply Rltb_spec in E; pose proof (Rabs_pos (k_centred n d i)); lra|].
    cbn [andb]. apply IH. intros q Hq. apply Hl. right. exact Hq. }
  rewrite K; [reflexivity|]. intros q Hq. apply indices_inside in Hq. inversion Hq. eauto.
Qed.

(** ** Raster-scan order *)
Lemma Sorted_app {A} (R : A -> A -> Prop) l1 l2 : StronglySorted R l1 -> StronglySorted R l2 -> (forall x y, In x l1 -> In y l2 -> R x y) -> StronglySorted R (l1 ++ l2).
Proof.
  induction 1 as [|x l1 H1 IH Hx]; intros H2 K; [exact H2|]. cbn [app]. constructor; [apply IH; [exact H2|intros; apply K; [right|]; assumption]|].
  apply Forall_app. split; [exact Hx|]. apply Forall_forall. intros y Hy. apply K; [left; reflexivity|exact Hy].
Qed.
Lemma Sorted_filter {A} (R : A -> A -> Prop) f l : StronglySorted R l -> StronglySorted R (filter f l).
Proof.
  induction 1 as [|x l H IH Hx]; cbn [filter]; [constructor|]. destruct (f x); [|exact IH]. constructor; [exact IH|].
  apply Forall_forall. intros y Hy. apply filter_In in Hy as [Hy _]. rewrite Forall_forall in Hx. apply Hx, Hy.
Qed.
Lemma Sorted_map {A B} (R : A -> A -> Prop) (R' : B -> B -> Prop) f l : (forall x y, In x l -> In y l -> R x y -> R' (f x) (f y)) -> StronglySorted R l -> StronglySorted R' (map f l).
Proof.
  intros K. induction 1 as [|x l H IH Hx]; cbn [map]; [constructor|]. constructor; [apply IH; intros; apply K; try (right; assumption); assumption|].
  apply Forall_forall. intros y Hy. apply in_map_iff in Hy as (z & <- & Hz). rewrite Forall_forall in Hx. apply K; [left; reflexivity|right; exact Hz|apply Hx; exact Hz].
Qed.
Lemma Sorted_rev {A} (R : A -> A -> Prop) l : StronglySorted R l -> StronglySorted (fun x y => R y x) (rev l).
Proof.
  induction 1 as [|x l H IH Hx]; cbn [rev]; [constructor|]. apply Sorted_app; [exact IH|repeat constructor|].
  intros y z Hy [<-|[]]. apply in_rev in Hy. rewrite Forall_forall in Hx. apply Hx, Hy.
Qed.
Lemma Sorted_unique {A} (R : A -> A -> Prop) l1 l2 : (forall x, ~ R x x) -> (forall x y, R x y -> ~ R y x) -> StronglySorted R l1 -> StronglySorted R l2 ->
  (forall x, In x l1 <-> In x l2) -> l1 = l2.
Proof.
  intros Irr Asy H1. revert l2. induction H1 as [|x l1 H1 IH Hx]; intros l2 H2 E.
  - destruct l2 as [|y l2]; [reflexivity|]. destruct (proj2 (E y) (or_introl eq_refl)).
  - destruct H2 as [|y l2 H2 Hy]; [destruct (proj1 (E x) (or_introl eq_refl))|]. rewrite Forall_forall in Hx, Hy.
    assert (x = y) as <-.
    { destruct (proj1 (E x) (or_introl eq_refl)) as [->|Hxl]; [reflexivity|]. destruct (proj2 (E y) (or_introl eq_refl)) as [->|Hyl]; [reflexivity|].
      destruct (Asy x y (Hx y Hyl) (Hy x Hxl)). }
    f_equal. apply IH; [exact H2|]. intros z. split; intros Hz.
    + destruct (proj1 (E z) (or_intror Hz)) as [<-|K]; [destruct (Irr x (Hx x Hz))|exact K].
    + destruct (proj2 (E z) (or_intror Hz)) as [<-|K]; [destruct (Irr x (Hy x Hz))|exact K].
Qed.
Lemma precedes_irr a : ~ precedes a a.
Proof. induction a as [|x a IH]; cbn; [tauto|]. intros [H|[_ H]]; [lia|tauto]. Qed.
Lemma precedes_asym a b : precedes a b -> ~ precedes b a.
Proof. revert b. induction a as [|x a IH]; intros [|y b]; cbn; try tauto. intros [H|[-> H]] [H'|[E H']]; try lia. apply (IH b H H'). Qed.
Lemma precedes_opp a b : length a = length b -> precedes a b -> precedes (map Z.opp b) (map Z.opp a).
Proof. revert b. induction a as [|x a IH]; intros [|y b] L; cbn; try tauto; try discriminate. injection L as L. intros [H|[-> H]]; [left; lia|right; split; [reflexivity|apply IH; assumption]]. Qed.
Fixpoint lex (a b : list nat) : Prop := match a, b with x :: a', y :: b' => (x < y)%nat \/ (x = y /\ lex a' b') | _, _ => False end.
Lemma indices_sorted s : StronglySorted lex (indices s).
Proof.
  induction s as [|n s IH]; cbn [indices]; [repeat constructor|].
  assert (forall k a, StronglySorted lex (flat_map (fun i => map (cons i) (indices s)) (seq a k))) as K; [|apply K].
  induction k as [|k IHk]; intros a; cbn [seq flat_map]; [constructor|]. apply Sorted_app; [|apply IHk|].
  - apply Sorted_map with (R := lex); [|exact IH]. intros x y _ _ H. right. auto.
  - intros x y Hx Hy. apply in_map_iff in Hx as (x' & <- & _). apply in_flat_map in Hy as (i & Hi & Hy). apply in_map_iff in Hy as (y' & <- & _). apply in_seq in Hi. left. lia.
Qed.
Lemma lex_signed s p q : inside s p -> inside s q -> lex p q -> precedes (signed s (unshift s p)) (signed s (unshift s q)).
Proof.
  intros Hp. revert q. induction Hp as [|n i s p Hi _ IH]; intros q Hq H; inversion Hq as [|? j ? r Hj Hr]; subst; [destruct H|]. cbn [unshift signed precedes]. rewrite !unshift_index by assumption.
  destruct H as [H|[-> H]]; [left; lia|right; split; [reflexivity|apply IH; assumption]].
Qed.
Lemma modes_inside o m : In m (modes o) -> inside (shape_of o) m.
Proof. unfold modes. intros H. apply in_map_iff in H as (q & <- & H). apply filter_In in H as [H _]. apply unshift_inside, indices_inside, H. Qed.
Lemma modes_sorted o : StronglySorted precedes (map (signed (shape_of o)) (modes o)).
Proof.
  unfold modes. rewrite map_map. apply Sorted_map with (R := lex); [|apply Sorted_filter, indices_sorted].
  intros x y Hx Hy H. apply filter_In in Hx as [Hx _]. apply filter_In in Hy as [Hy _]. apply lex_signed; [apply indices_inside; exact Hx|apply indices_inside; exact Hy|exact H].
Qed.
Lemma sorted_NoDup {A} (R : A -> A -> Prop) l : (forall x, ~ R x x) -> StronglySorted R l -> NoDup l.
Proof. intros Irr. induction 1 as [|x l H IH Hx]; constructor; [|exact IH]. intros K. rewrite Forall_forall in Hx. apply (Irr x), Hx, K. Qed.
Lemma modes_NoDup o : NoDup (modes o).
Proof. apply (NoDup_map_inv (signed (shape_of o))). apply (sorted_NoDup precedes); [exact precedes_irr|apply modes_sorted]. Qed.

(** ** Opposite directions *)
Fixpoint mirror (s q : list nat) : list nat := match s, q with n :: s', i :: q' => (2 * (n / 2) - i)%nat :: mirror s' q' | _, _ => [] end.
Lemma k_centred_mirror n d i : (i < n)%nat -> (0 < d)%R -> (Rabs (k_centred n d i) * d < PI)%R -> (2 * (n / 2) - i < n)%nat /\ k_centred n d (2 * (n / 2) - i) = (- k_centred n d i)%R /\ (Z.of_nat (2 * (n / 2) - i) - Z.of_nat (n / 2) = - (Z.of_nat i - Z.of_nat (n / 2)))%Z.
Proof.
  intros Hi Hd H. pose proof PI_RGT_0 as P.
  assert (2 * (n / 2) - i < n)%nat as L.
  { destruct (Nat.eq_dec i 0) as [->|]; [|lia]. destruct (Nat.eq_dec (2 * (n / 2)) n) as [E|]; [|lia]. exfalso. unfold k_centred in H.
    assert (IZR (Z.of_nat 0 - Z.of_nat (n / 2)) = - (INR n / 2))%R as E1.
    { replace (Z.of_nat 0 - Z.of_nat (n / 2))%Z with (- Z.of_nat (n / 2))%Z by lia. rewrite opp_IZR, <- INR_IZR_INZ. rewrite <- E at 2. rewrite mult_INR. cbn [INR]. lra. }
    rewrite E1 in H. assert (0 < INR n)%R by (apply lt_0_INR; lia).
    replace (2 * PI * - (INR n / 2) / (INR n * d))%R with (- (PI / d))%R in H by (field; lra). rewrite Rabs_Ropp, Rabs_pos_eq in H by (apply Rlt_le, Rdiv_lt_0_compat; lra).
    unfold Rdiv in H. rewrite Rmult_assoc, Rinv_l in H by lra. lra. }
  assert (i <= 2 * (n / 2))%nat by (pose proof (Nat.div_mod n 2); pose proof (Nat.mod_upper_bound n 2); lia).
  assert (Z.of_nat (2 * (n / 2) - i) - Z.of_nat (n / 2) = - (Z.of_nat i - Z.of_nat (n / 2)))%Z as E by lia.
  split; [exact L|]. split; [|exact E]. unfold k_centred. rewrite E, opp_IZR. unfold Rdiv. ring.
Qed.
Lemma mirror_propagates k0 tol s st q k_abs : (0 <= tol)%R -> (0 < k_abs <= k0)%R -> length st = length s -> inside s q -> Forall (fun d => (0 < d)%R) st -> Forall (fun d => (k0 * d <= PI)%R) st ->
  propagates k_abs tol s st q = true -> inside s (mirror s q) /\ propagates k_abs tol s st (mirror s q) = true /\ signed s (unshift s (mirror s q)) = map Z.opp (signed s (unshift s q)).
Proof.
  intros T K L H. revert st k_abs K L. induction H as [|n i s q Hi Hq IH]; intros st k_abs K L F1 F2 P.
  - destruct st; [|discriminate]. repeat split. constructor.
  - destruct st as [|d st]; [discriminate|]. injection L as L. inversion F1 as [|? ? D1 F1']; subst. inversion F2 as [|? ? D2 F2']; subst.
    cbn [propagates] in P. apply andb_true_iff in P as [P1 P2]. pose proof P1 as P1'. apply Rltb_spec in P1. set (k := k_centred n d i) in *. pose proof (Rabs_pos k) as A0.
    assert (Rabs k * d < PI)%R as N by nra.
    destruct (k_centred_mirror n d i Hi D1 N) as (M1 & M2 & M3). fold k in M2. assert (k * k < k_abs * k_abs)%R by (apply abs_sq; lra).
    rewrite Rmax_left in P2 by lra.
    assert (sqrt (k_abs * k_abs - k * k) <= k0)%R by (apply Rle_trans with (sqrt (k_abs * k_abs)); [apply sqrt_le_1_alt; nra|rewrite sqrt_square; lra]).
    destruct (IH st (sqrt (k_abs * k_abs - k * k)) ltac:(split; [apply sqrt_lt_R0; lra|assumption]) L F1' F2' P2) as (I1 & I2 & I3).
    cbn [mirror]. split; [constructor; assumption|]. split.
    + cbn [propagates]. rewrite M2, Rabs_Ropp. rewrite P1'. cbn [andb]. replace (- k * - k)%R with (k * k)%R by ring. rewrite Rmax_left by lra. exact I2.
    + cbn [unshift signed map]. rewrite !unshift_index by assumption. rewrite I3. f_equal. exact M3.
Qed.
Lemma modes_reversed o : valid o -> sampled o -> rev (map (signed (shape_of o)) (modes o)) = map (map Z.opp) (map (signed (shape_of o)) (modes o)).
Proof.
  intros (V1 & V2 & V3 & V4 & V5 & V6) N. set (l := map (signed (shape_of o)) (modes o)).
  assert (forall x, In x l -> In (map Z.opp x) l) as K.
  { intros x Hx. unfold l in *. apply in_map_iff in Hx as (m & <- & Hm). unfold modes in Hm. apply in_map_iff in Hm as (q & <- & Hq). apply filter_In in Hq as [Hq1 Hq2]. apply indices_inside in Hq1.
    destruct (mirror_propagates (wavenumber o) (tolerance o) (shape_of o) (rstep (transverse o)) q (wavenumber o)) as (I1 & I2 & I3); try assumption; [lra|].
    rewrite <- I3. apply in_map. unfold modes. apply in_map. apply filter_In. split; [apply indices_inside; exact I1|exact I2]. }
  apply (Sorted_unique (fun x y => precedes y x)); [intros x; apply precedes_irr|intros x y; apply precedes_asym|apply Sorted_rev, modes_sorted| |].
  - apply Sorted_map with (R := precedes); [|apply modes_sorted]. intros x y Hx Hy H. apply precedes_opp; [|exact H].
    apply in_map_iff in Hx as (a & <- & Ha). apply in_map_iff in Hy as (b & <- & Hb). rewrite !signed_length by (apply modes_inside; assumption). reflexivity.
  - intros x. rewrite <- in_rev, in_map_iff. split.
    + intros Hx. exists (map Z.opp x). split; [|apply K; exact Hx]. rewrite map_map. rewrite <- (map_id x) at 2. apply map_ext. intros z. lia.
    + intros (y & <- & Hy). apply K, Hy.
Qed.
Lemma mode_in o j : (j < n_modes o)%nat -> In (mode o j) (modes o).
Proof. apply nth_In. Qed.
Lemma rmode_in o j : (j < n_modes o)%nat -> In (rmode o j) (modes o).
Proof. intros H. apply in_rev. unfold rmode. apply nth_In. rewrite rev_length. exact H. Qed.
Lemma rmode_mode o j : (j < n_modes o)%nat -> rmode o j = mode o (n_modes o - Datatypes.S j).
Proof. intros H. unfold rmode, mode. apply rev_nth. exact H. Qed.
Lemma rmode_inj o i j : (i < n_modes o)%nat -> (j < n_modes o)%nat -> rmode o i = rmode o j -> i = j.
Proof.
  intros Hi Hj E. rewrite !rmode_mode in E by assumption. unfold mode in E.
  apply (NoDup_nth (modes o) []) in E; [lia|apply modes_NoDup|unfold n_modes in *; lia|unfold n_modes in *; lia].
Qed.
Lemma rmode_opposite o j : valid o -> sampled o -> (j < n_modes o)%nat -> signed (shape_of o) (rmode o j) = map Z.opp (signed (shape_of o) (mode o j)).
Proof.
  intros V N H. pose proof (modes_reversed o V N) as E. apply (f_equal (fun l => nth j l (signed (shape_of o) []))) in E.
  rewrite <- map_rev in E. rewrite map_nth in E. rewrite map_map in E. rewrite (nth_indep _ _ (map Z.opp (signed (shape_of o) []))) in E by (rewrite map_length; exact H).
  rewrite (map_nth (fun x => map Z.opp (signed (shape_of o) x)) (modes o) [] j) in E. exact E.
Qed.

(** ** Fields of modes *)
Lemma spread_sum o amp x r : spread o amp x r =
  csum (n_modes o) (fun j => amp j * cis (origin_phase o j) * cis (wavenumber o * cosine o j * xpos o x) * cis (- phase (shape_of o) (rmode o j) r)).
Proof.
  unfold spread, ft. rewrite (sum_over_ext _ _ (fun q => csum (n_modes o) (fun j => if idx_eqb q (rmode o j) then amp j * cis (origin_phase o j) * cis (wavenumber o * cosine o j * xpos o x) * cis (- phase (shape_of o) q r) else 0))).
  2:{ intros q Hq. rewrite <- csum_scal_r. apply csum_ext. intros j Hj. destruct (idx_eqb q (rmode o j)); ring. }
  rewrite sum_over_csum. apply csum_ext. intros j Hj.
  apply (sum_over_delta _ _ (fun q => amp j * cis (origin_phase o j) * cis (wavenumber o * cosine o j * xpos o x) * cis (- phase (shape_of o) q r))). apply modes_inside, rmode_in, Hj.
Qed.
Lemma spread_detected o amp x j : (j < n_modes o)%nat ->
  ift (shape_of o) (spread o amp x) (rmode o j) = amp j * cis (origin_phase o j) * cis (wavenumber o * cosine o j * xpos o x).
Proof.
  intros H. unfold spread. rewrite ift_ft by (apply modes_inside, rmode_in, H).
  rewrite (csum_ext _ _ (fun i => if (i =? j)%nat then amp i * cis (origin_phase o i) * cis (wavenumber o * cosine o i * xpos o x) else 0)).
  - apply (csum_delta _ _ (fun i => amp i * cis (origin_phase o i) * cis (wavenumber o * cosine o i * xpos o x))). exact H.
  - intros i Hi. destruct (idx_eqb_spec (rmode o j) (rmode o i)) as [E|E]; destruct (Nat.eqb_spec i j) as [Ei|Ei]; try reflexivity.
    + destruct Ei. apply (rmode_inj o); auto.
    + destruct E. rewrite Ei. reflexivity.
Qed.
