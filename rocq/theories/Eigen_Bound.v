(** The largest eigenvalue of a Hermitian 3x3 matrix bounds its quadratic form. *)
From Coq Require Import Reals Lra Lia List Arith Psatz.
Require Import Verif.Base Verif.Cplx Verif.CSum Verif.Roots_Model Verif.Fourier_Model Verif.Fourier_Proofs Verif.Modes_Model Verif.Roots_Spec Verif.Roots_Formulas Verif.Roots_Proofs Verif.Roots_Eigen.
Import ListNotations.
Local Open Scope R_scope.
Local Open Scope C_scope.

(** The real part of the inner product. *)
Definition rip (u v : nat -> C) : R := (fst (u 0%nat) * fst (v 0%nat) + snd (u 0%nat) * snd (v 0%nat) + (fst (u 1%nat) * fst (v 1%nat) + snd (u 1%nat) * snd (v 1%nat))
  + (fst (u 2%nat) * fst (v 2%nat) + snd (u 2%nat) * snd (v 2%nat)))%R.
Definition ap (A : nat -> nat -> C) (u : nat -> C) : nat -> C := fun i => csum 3 (fun j => A i j * u j).
Definition same (u v : nat -> C) : Prop := forall i, (i < 3)%nat -> u i = v i.

Lemma rip_sym u v : rip u v = rip v u.
Proof. unfold rip. ring. Qed.
Lemma rip_nonneg u : (0 <= rip u u)%R.
Proof. unfold rip. nra. Qed.
Lemma rip_same u v w : same v w -> rip u v = rip u w.
Proof. intros H. unfold rip. rewrite !H by lia. reflexivity. Qed.
Lemma rip_lin u (a b : R) v w : rip u (fun i => RtoC a * v i + RtoC b * w i) = (a * rip u v + b * rip u w)%R.
Proof. unfold rip. cbn. ring. Qed.
Lemma rip_vip u v : rip u v = fst (csum 3 (fun i => Cconj (u i) * v i)).
Proof. unfold rip. cbn. ring. Qed.
Lemma rip_mod u : rip u u = rsum 3 (fun i => (Cmod (u i) * Cmod (u i))%R).
Proof. cbn [rsum]. rewrite !Cmod_sq. unfold rip. ring. Qed.
Lemma rip_null u w : rip w w = 0%R -> rip u w = 0%R.
Proof.
  intros H. pose proof (rip_nonneg u) as H0.
  assert (Q : forall t : R, (0 <= 2 * t * rip u w + t * t * rip u u)%R).
  { intros t. pose proof (rip_nonneg (fun i => RtoC 1 * w i + RtoC t * u i)) as P. set (x := fun i => RtoC 1 * w i + RtoC t * u i) in P. unfold x at 2 in P.
    rewrite rip_lin, (rip_sym x w), (rip_sym x u) in P. unfold x in P. rewrite !rip_lin, H, (rip_sym w u) in P. lra. }
  set (r := rip u w) in *. set (m := rip u u) in *. specialize (Q (- r / (m + 1))%R).
  assert (E : (2 * (- r / (m + 1)) * r + - r / (m + 1) * (- r / (m + 1)) * m = - (r * r * (m + 2) / ((m + 1) * (m + 1))))%R) by (field; lra).
  rewrite E in Q. assert (0 < (m + 1) * (m + 1))%R by nra.
  assert (r * r * (m + 2) <= 0)%R.
  { apply Rnot_lt_le. intros F. assert (0 < r * r * (m + 2) / ((m + 1) * (m + 1)))%R by (apply Rdiv_lt_0_compat; assumption). lra. }
  nra.
Qed.

(** A symmetric operator N with N (N - a) (N - b) = 0 for a, b >= 0 is not negative. *)
Section Moments.
  Variable N : (nat -> C) -> nat -> C.
  Hypothesis N_sym : forall u v, rip u (N v) = rip (N u) v.
  Variables (a b : R).
  Hypothesis Ha : (0 <= a)%R.
  Hypothesis Hb : (0 <= b)%R.
  Hypothesis N_poly : forall u, same (N (N (N u))) (fun i => RtoC (a + b) * N (N u) i + RtoC (- (a * b)) * N u i).
  Lemma moments_nonneg u : (0 <= rip u (N u))%R.
  Proof.
    set (m1 := rip u (N u)). set (m2 := rip (N u) (N u)). set (m3 := rip (N u) (N (N u))). set (m4 := rip (N (N u)) (N (N u))).
    assert (E3 : m3 = ((a + b) * m2 - a * b * m1)%R).
    { unfold m3. rewrite <- N_sym. rewrite (rip_same _ _ _ (N_poly u)), rip_lin. rewrite (N_sym u (N u)). fold m1 m2. ring. }
    assert (E4 : m4 = ((a + b) * m3 - a * b * m2)%R).
    { unfold m4. rewrite <- N_sym. rewrite (rip_same _ _ _ (N_poly u)), rip_lin. fold m3 m2. ring. }
    assert (P2 : (0 <= m2)%R) by apply rip_nonneg.
    assert (W : forall t : R, let w := fun i => RtoC 1 * N (N u) i + RtoC (- t) * N u i in
      rip w w = (m4 - 2 * t * m3 + t * t * m2)%R /\ rip u w = (m2 - t * m1)%R).
    { intros t w. split.
      - unfold w at 2. rewrite rip_lin, !(rip_sym w). unfold w. rewrite !rip_lin. rewrite (rip_sym (N (N u)) (N u)). fold m2 m3 m4. ring.
      - unfold w. rewrite rip_lin, N_sym. fold m1 m2. ring. }
    destruct (W a) as [Wa1 Wa2]. destruct (W b) as [Wb1 Wb2].
    assert (Pa : (0 <= m4 - 2 * a * m3 + a * a * m2)%R) by (rewrite <- Wa1; apply rip_nonneg).
    assert (Pb : (0 <= m4 - 2 * b * m3 + b * b * m2)%R) by (rewrite <- Wb1; apply rip_nonneg).
    assert (Ea : (m4 - 2 * a * m3 + a * a * m2 = b * (b - a) * (m2 - a * m1))%R) by (rewrite E4, E3; ring).
    assert (Eb : (m4 - 2 * b * m3 + b * b * m2 = a * (a - b) * (m2 - b * m1))%R) by (rewrite E4, E3; ring).
    assert (Za : (b * (b - a) = 0 -> m2 = a * m1)%R).
    { intros Z. assert (rip u (fun i => (RtoC 1 * N (N u) i + RtoC (- a) * N u i)%C) = 0)%R as X by (apply rip_null; rewrite Wa1, Ea, Z; ring).
      rewrite Wa2 in X. lra. }
    assert (Zb : (a * (a - b) = 0 -> m2 = b * m1)%R).
    { intros Z. assert (rip u (fun i => (RtoC 1 * N (N u) i + RtoC (- b) * N u i)%C) = 0)%R as X by (apply rip_null; rewrite Wb1, Eb, Z; ring).
      rewrite Wb2 in X. lra. }
    destruct (Req_dec a 0) as [A0|A0]; [|destruct (Req_dec b 0) as [B0|B0]; [|destruct (Rtotal_order a b) as [AB|[AB|AB]]]].
    - assert (M : (m2 = b * m1)%R) by (apply Zb; rewrite A0; ring).
      destruct (Req_dec b 0) as [B0|B0]; [|assert (0 < b)%R by lra; nra].
      assert (M2 : m2 = 0%R) by (rewrite M, B0; ring). apply Req_le. symmetry. unfold m1. apply rip_null. exact M2.
    - assert (M : (m2 = a * m1)%R) by (apply Za; rewrite B0; ring). assert (0 < a)%R by lra. nra.
    - assert (0 < b * (b - a))%R by (apply Rmult_lt_0_compat; lra). assert (0 <= m2 - a * m1)%R by (rewrite Ea in Pa; nra).
      assert (0 < a * (b - a))%R by (apply Rmult_lt_0_compat; lra).
      assert (m2 - b * m1 <= 0)%R by (rewrite Eb in Pb; nra). assert (0 < b)%R by lra. nra.
    - assert (M : (m2 = a * m1)%R) by (apply Za; rewrite AB; ring). assert (0 < a)%R by lra. nra.
    - assert (0 < a * (a - b))%R by (apply Rmult_lt_0_compat; lra). assert (0 <= m2 - b * m1)%R by (rewrite Eb in Pb; nra).
      assert (0 < b * (a - b))%R by (apply Rmult_lt_0_compat; lra).
      assert (m2 - a * m1 <= 0)%R by (rewrite Ea in Pa; nra). assert (0 < a)%R by lra. nra.
  Qed.
End Moments.

(** ** The characteristic polynomial *)
Lemma rip_hermitian A u v : hermitian A -> rip u (ap A v) = rip (ap A u) v.
Proof.
  intros H. rewrite !rip_vip. unfold ap. 
  assert (K : forall i j, (i < 3)%nat -> (j < 3)%nat -> Cconj (A i j) = A j i) by (intros; symmetry; apply H; assumption).
  apply (f_equal fst). cbn [csum]. rewrite !Cconj_plus, !Cconj_mult, !Cconj_R, !K by lia. match goal with |- @eq _ ?x ?y => change (@eq C x y) end. ring.
Qed.
Definition trace3 (A : nat -> nat -> C) : C := A 0%nat 0%nat + A 1%nat 1%nat + A 2%nat 2%nat.
Definition minors3 (A : nat -> nat -> C) : C :=
  A 0%nat 0%nat * A 1%nat 1%nat - A 0%nat 1%nat * A 1%nat 0%nat + (A 0%nat 0%nat * A 2%nat 2%nat - A 0%nat 2%nat * A 2%nat 0%nat)
  + (A 1%nat 1%nat * A 2%nat 2%nat - A 1%nat 2%nat * A 2%nat 1%nat).
Lemma det_minus A x : det3 (minus_x A x) = - (x * x * x) + trace3 A * (x * x) - minors3 A * x + det3 A.
Proof. unfold det3, minus_x, trace3, minors3. cbn [Nat.eqb]. ring. Qed.
Lemma cayley_hamilton A u : same (ap A (ap A (ap A u))) (fun i => trace3 A * ap A (ap A u) i - minors3 A * ap A u i + det3 A * u i).
Proof. intros i Hi. unfold ap, trace3, minors3, det3. cbn [csum]. destruct i as [|[|[|i]]]; [ring|ring|ring|lia]. Qed.
Lemma two_neq : 1 + 1 <> RtoC 0.
Proof. intros H. injection H as H. lra. Qed.
Lemma vieta A (x y z : C) : (forall t, det3 (minus_x A t) = - product_of [x; y; z] t) ->
  trace3 A = x + y + z /\ minors3 A = x * y + x * z + y * z /\ det3 A = x * y * z.
Proof.
  intros H. pose proof (H 0) as H0. pose proof (H 1) as H1. pose proof (H (- (1))) as H2. rewrite det_minus in H0, H1, H2. unfold product_of in *. cbn [fold_right] in *.
  assert (D : det3 A = x * y * z).
  { transitivity (- (0 * 0 * 0) + trace3 A * (0 * 0) - minors3 A * 0 + det3 A); [ring|]. rewrite H0. ring. }
  rewrite D in H1, H2.
  assert (T : trace3 A = x + y + z).
  { transitivity (((- (1 * 1 * 1) + trace3 A * (1 * 1) - minors3 A * 1 + x * y * z) + (- (- (1) * - (1) * - (1)) + trace3 A * (- (1) * - (1)) - minors3 A * - (1) + x * y * z)
       - (1 + 1) * (x * y * z)) / (1 + 1)); [field; apply two_neq|]. rewrite H1, H2. field. apply two_neq. }
  split; [exact T|]. split; [|exact D]. rewrite T in H1.
  transitivity (- (1 * 1 * 1) + (x + y + z) * (1 * 1) + x * y * z - (- (1 * 1 * 1) + (x + y + z) * (1 * 1) - minors3 A * 1 + x * y * z)); [ring|]. rewrite H1. ring.
Qed.
Lemma form_bound_first A (x y z : R) u : hermitian A -> (forall t, det3 (minus_x A t) = - product_of [RtoC x; RtoC y; RtoC z] t) ->
  (y <= x)%R -> (z <= x)%R -> (rip u (ap A u) <= x * rip u u)%R.
Proof.
  intros H P Hy Hz. destruct (vieta A _ _ _ P) as (T & M & D).
  set (N := fun u i => RtoC x * u i - ap A u i : C).
  assert (S : forall u v, rip u (N v) = rip (N u) v).
  { intros u' v. pose proof (rip_hermitian A u' v H) as K. unfold N.
    transitivity (rip u' (fun i => RtoC x * v i + RtoC (- (1)) * ap A v i)); [apply rip_same; intros i _; rewrite RtoC_opp; ring|]. rewrite rip_lin.
    transitivity (rip v (fun i => RtoC x * u' i + RtoC (- (1)) * ap A u' i)); [|rewrite (rip_sym _ v); apply rip_same; intros i _; rewrite RtoC_opp; ring].
    rewrite rip_lin, (rip_sym v), (rip_sym v), K. ring. }
  assert (L : forall u v (c d : C), same (ap A (fun i => c * u i + d * v i)) (fun i => c * ap A u i + d * ap A v i)).
  { intros u' v c d i _. unfold ap. cbn [csum]. ring. }
  assert (Sm : forall u v, same u v -> same (ap A u) (ap A v)).
  { intros u' v E i _. unfold ap. apply csum_ext. intros j Hj. rewrite (E j Hj). reflexivity. }
  assert (N2 : forall u, same (N (N u)) (fun i => RtoC x * RtoC x * u i - (RtoC x + RtoC x) * ap A u i + ap A (ap A u) i)).
  { intros u' i Hi. unfold N. assert (E : same (fun j => RtoC x * u' j - ap A u' j) (fun j => RtoC x * u' j + - (1) * ap A u' j)) by (intros j _; ring).
    rewrite (Sm _ _ E i Hi), (L _ _ _ _ i Hi). ring. }
  assert (N3 : forall u, same (N (N (N u))) (fun i => RtoC x * RtoC x * RtoC x * u i - (RtoC x * RtoC x + RtoC x * RtoC x + RtoC x * RtoC x) * ap A u i
      + (RtoC x + RtoC x + RtoC x) * ap A (ap A u) i - ap A (ap A (ap A u)) i)).
  { intros u' i Hi. unfold N at 1.
    assert (E : same (N (N u')) (fun j => 1 * (RtoC x * RtoC x * u' j + - (RtoC x + RtoC x) * ap A u' j) + 1 * ap A (ap A u') j)) by (intros j Hj; rewrite (N2 u' j Hj); ring).
    rewrite (Sm _ _ E i Hi), (L _ _ _ _ i Hi), (L _ _ _ _ i Hi), (N2 u' i Hi). ring. }
  assert (Q : (0 <= rip u (N u))%R).
  { apply (moments_nonneg N S (x - y) (x - z)); [lra|lra|]. intros u' i Hi. rewrite (N3 u' i Hi), (N2 u' i Hi), (cayley_hamilton A u' i Hi), T, M, D. unfold N.
    rewrite RtoC_opp, RtoC_mult, RtoC_plus, !RtoC_minus. ring. }
  unfold N in Q. rewrite (rip_same u _ (fun i => RtoC x * u i + RtoC (- (1)) * ap A u i)) in Q by (intros i _; rewrite RtoC_opp; ring).
  rewrite rip_lin in Q. lra.
Qed.
Lemma product_swap (x y z t : C) : product_of [x; y; z] t = product_of [y; x; z] t /\ product_of [x; y; z] t = product_of [z; y; x] t.
Proof. unfold product_of. cbn [fold_right]. split; ring. Qed.
Lemma form_bound A (l : list C) (m : R) u : hermitian A -> (forall t, det3 (minus_x A t) = - product_of l t) -> length l = 3%nat -> Forall (eigenvalue A) l ->
  Forall (fun x => (fst x <= m)%R) l -> (rip u (ap A u) <= m * rip u u)%R.
Proof.
  intros H P Len E Le. destruct l as [|x [|y [|z [|? ?]]]]; try discriminate Len.
  inversion E as [|? ? Ex E1]; subst. inversion E1 as [|? ? Ey E2]; subst. inversion E2 as [|? ? Ez _]; subst.
  inversion Le as [|? ? Lx L1]; subst. inversion L1 as [|? ? Ly L2]; subst. inversion L2 as [|? ? Lz _]; subst.
  assert (K : forall w, eigenvalue A w -> w = RtoC (fst w)) by (intros [w1 w2] Hw; pose proof (hermitian_real A _ H Hw) as Q; cbn in Q; subst; reflexivity).
  rewrite (K x Ex), (K y Ey), (K z Ez) in P. cbn [fst RtoC] in P.
  pose proof (rip_nonneg u) as U.
  assert (G : forall w : C, (fst w <= m)%R -> (rip u (ap A u) <= fst w * rip u u)%R -> (rip u (ap A u) <= m * rip u u)%R) by (intros; nra).
  destruct (Rle_dec (fst y) (fst x)) as [YX|YX], (Rle_dec (fst z) (fst x)) as [ZX|ZX].
  - apply (G x Lx), (form_bound_first A _ _ _ u H P); assumption.
  - apply (G z Lz), (form_bound_first A (fst z) (fst y) (fst x) u H); [|lra|lra]. intros t. rewrite P. f_equal. apply product_swap.
  - apply (G y Ly), (form_bound_first A (fst y) (fst x) (fst z) u H); [|lra|lra]. intros t. rewrite P. f_equal. apply product_swap.
  - destruct (Rle_dec (fst z) (fst y)) as [ZY|ZY].
    + apply (G y Ly), (form_bound_first A (fst y) (fst x) (fst z) u H); [|lra|lra]. intros t. rewrite P. f_equal. apply product_swap.
    + apply (G z Lz), (form_bound_first A (fst z) (fst y) (fst x) u H); [|lra|lra]. intros t. rewrite P. f_equal. apply product_swap.
Qed.
(** And from below. *)
Lemma form_bound_below A (l : list C) (m : R) u : hermitian A -> (forall t, det3 (minus_x A t) = - product_of l t) -> length l = 3%nat -> Forall (eigenvalue A) l ->
  Forall (fun x => (m <= fst x)%R) l -> (m * rip u u <= rip u (ap A u))%R.
Proof.
  intros H P Len E Le.
  assert (H' : hermitian (fun i j => - A i j)) by (intros i j Hi Hj; rewrite (H i j Hi Hj), Cconj_opp; reflexivity).
  assert (B : (rip u (ap (fun i j => (- A i j)%C) u) <= - m * rip u u)%R).
  { apply (form_bound _ (map Copp l) (- m) u H').
    - intros t. destruct l as [|x [|y [|z [|? ?]]]]; try discriminate Len. specialize (P (- t)).
      transitivity (- det3 (minus_x A (- t))); [unfold det3, minus_x; cbn [Nat.eqb]; ring|]. rewrite P. unfold product_of. cbn [fold_right map]. ring.
    - now rewrite map_length.
    - rewrite Forall_map. eapply Forall_impl; [|exact E]. intros x (v & Nz & K). exists v. split; [exact Nz|]. intros i Hi. specialize (K i Hi). cbn [csum] in *.
      transitivity (- (0 + A i 0%nat * v 0%nat + A i 1%nat * v 1%nat + A i 2%nat * v 2%nat)); [ring|]. rewrite K. ring.
    - rewrite Forall_map. eapply Forall_impl; [|exact Le]. intros [x1 x2] Hx. cbn in *. lra. }
  rewrite (rip_same u _ (fun i => RtoC (- (1)) * ap A u i + RtoC 0 * u i)) in B by (intros i _; unfold ap; cbn [csum]; rewrite RtoC_opp; ring).
  rewrite rip_lin in B. lra.
Qed.
(** The number of values of mat3_eigh. *)
Lemma mat3_length eps arr roots : (0 < eps)%R -> (2 * eps <= 1)%R -> mat3_eigh eps [3%nat; 3%nat] arr = Ok (map Some roots) -> length roots = 3%nat.
Proof.
  intros He H1 E. unfold mat3_eigh in E. cbn [Nat.eqb andb] in E. unfold characteristic in E. cbv zeta in E.
  match type of E with roots_of eps [?c0; ?c1; ?c2; ?c3] = _ => 
    pose proof (add_roots_spec eps [c0; c1; c2; c3] [] (Forall_nil _) ltac:(discriminate) ltac:(cbn [last]; rewrite Cmod_opp, Cmod_1; exact H1)) as Q end.
  cbn [app length repeat] in Q. rewrite (roots_of_formula eps _ _ _ Q) in E by (cbn; lia). cbn [formula] in E.
  unfold remove_roots in E. rewrite remove_zeros_none in E. cbn [fst] in E. rewrite (nan_sort_spec _ _ 0 (values_some _)) in E by (rewrite map_length; lia).
  cbn [repeat] in E. rewrite app_nil_r in E.
  assert (X : forall x y : list (option C), Ok x = Ok y -> length x = length y) by (intros x y K; injection K as ->; reflexivity).
  apply X in E. rewrite !map_length in E. rewrite <- E, <- (Permutation.Permutation_length (csort_permutation _)). reflexivity.
Qed.
(** What mat3_eigh returns is sorted cubic roots. *)
Lemma mat3_cubic eps arr : (0 < eps)%R -> (2 * eps <= 1)%R -> let A := fun i j => arr [i; j] in
  mat3_eigh eps [3%nat; 3%nat] arr = Ok (map Some (csort (cubic eps (det3 A) (- minors3 A) (trace3 A) (- (1))))).
Proof.
  intros He H1 A. unfold mat3_eigh. cbn [Nat.eqb andb].
  assert (E : characteristic (fun i j => arr [i; j]) = [det3 A; - minors3 A; trace3 A; - (1)]).
  { unfold characteristic, det3, minors3, trace3, A. cbv zeta. repeat (apply f_equal2; [try reflexivity; ring|]). reflexivity. }
  rewrite E. pose proof (add_roots_spec eps [det3 A; - minors3 A; trace3 A; - (1)] [] (Forall_nil _) ltac:(discriminate) ltac:(cbn [last]; rewrite Cmod_opp, Cmod_1; exact H1)) as Q.
  cbn [app length repeat] in Q. rewrite (roots_of_formula eps _ _ _ Q) by (cbn; lia). cbn [formula].
  unfold remove_roots. rewrite remove_zeros_none. cbn [fst]. rewrite (nan_sort_spec _ _ 0 (values_some _)) by (rewrite map_length; lia).
  cbn [repeat]. rewrite app_nil_r. reflexivity.
Qed.
Lemma real_square_sum (x y z : R) : (0 <= x)%R -> (0 <= y)%R -> (0 <= z)%R ->
  let q := ((x + y + z) / 3 * ((x + y + z) / 3) - (x * y + x * z + y * z) / 3)%R in (0 <= q <= (x + y + z) / 3 * ((x + y + z) / 3))%R.
Proof.
  intros Hx Hy Hz q. split.
  - replace q with (((x - y) * (x - y) + (y - z) * (y - z) + (z - x) * (z - x)) / 18)%R by (unfold q; field).
    pose proof (Rle_0_sqr (x - y)) as S1. pose proof (Rle_0_sqr (y - z)) as S2. pose proof (Rle_0_sqr (z - x)) as S3. unfold Rsqr in *. lra.
  - unfold q. pose proof (Rmult_le_pos x y Hx Hy). pose proof (Rmult_le_pos x z Hx Hz). pose proof (Rmult_le_pos y z Hy Hz). lra.
Qed.
Lemma forall2_length {X Y} (P : X -> Y -> Prop) l l' : Forall2 P l l' -> length l = length l'.
Proof. induction 1; cbn; congruence. Qed.
Lemma ok_some_inj (l l' : list C) : Ok (map Some l) = Ok (map Some l') -> l = l'.
Proof. intros E. assert (X : map Some l = map Some l') by congruence. apply (f_equal values) in X. rewrite !values_some in X. exact X. Qed.
Lemma Rabs_def2_le (x y : R) : (Rabs x <= y -> - y <= x <= y)%R.
Proof. intros H. pose proof (Rle_abs x). pose proof (Rle_abs (- x)). rewrite Rabs_Ropp in *. lra. Qed.
Lemma cube_le (x y : R) : (0 <= x)%R -> (0 <= y)%R -> (x * x * x <= y * y * y)%R -> (x <= y)%R.
Proof. intros Hx Hy H. apply Rnot_lt_le. intros F. assert (y * y < x * x)%R by nra. nra. Qed.
(** A matrix without negative eigenvalues is never thought to have one below -sqrt eps. *)
Lemma eigh_nonneg eps arr roots : let A := fun i j => arr [i; j] in (0 < eps)%R -> (2 * eps <= 1)%R -> hermitian A -> (forall x, eigenvalue A x -> (0 <= fst x)%R) ->
  mat3_eigh eps [3%nat; 3%nat] arr = Ok (map Some roots) -> Forall (fun x => (- sqrt eps <= fst x)%R) roots.
Proof.
  intros A He H1 Hm Pos E. destruct (mat3_near eps arr He H1) as (roots' & exact & E' & P & Ev & Near). fold A in P, Ev.
  assert (roots' = roots) as ->.
  { rewrite E in E'. symmetry. apply ok_some_inj. exact E'. }
  assert (Len : length exact = 3%nat) by (rewrite <- (forall2_length _ _ _ Near); exact (mat3_length eps arr roots He H1 E)).
  pose proof (sqrt_lt_R0 eps He) as Hq.
  destruct exact as [|x [|y [|z [|? ?]]]]; try discriminate Len.
  inversion Ev as [|? ? Ex E1]; subst. inversion E1 as [|? ? Ey E2]; subst. inversion E2 as [|? ? Ez _]; subst.
  assert (K : forall w, eigenvalue A w -> w = RtoC (fst w)) by (intros [w1 w2] Hw; pose proof (hermitian_real A _ Hm Hw) as Q; cbn in Q; subst; reflexivity).
  rewrite (K x Ex), (K y Ey), (K z Ez) in P. pose proof (Pos x Ex) as Px. pose proof (Pos y Ey) as Py. pose proof (Pos z Ez) as Pz.
  set (x' := fst x) in *. set (y' := fst y) in *. set (z' := fst z) in *. clearbody x' y' z'.
  destruct (vieta A _ _ _ P) as (T & M & D).
  set (m := ((x' + y' + z') / 3)%R). set (q := (m * m - (x' * y' + x' * z' + y' * z') / 3)%R).
  set (r := (- (m * m * m) + (m * (x' * y' + x' * z' + y' * z') - x' * y' * z') / 2)%R).
  destruct (real_square_sum x' y' z' Px Py Pz) as [Q0 Qm]. fold m q in Q0, Qm.
  assert (Disc : (r * r <= q * q * q)%R).
  { assert (q * q * q - r * r = (x' - y') * (y' - z') * (z' - x') * ((x' - y') * (y' - z') * (z' - x')) / 108)%R by (unfold q, r, m; field).
    pose proof (Rle_0_sqr ((x' - y') * (y' - z') * (z' - x'))) as S. unfold Rsqr in S. lra. }
  assert (three : RtoC 3 <> 0) by (apply RtoC_neq; lra). assert (two : RtoC 2 <> 0) by (apply RtoC_neq; lra). assert (one : - (1) <> RtoC 0) by (intros F; injection F as F; lra).
  assert (Ea : trace3 A / - (1) / RtoC 3 = RtoC (- m)).
  { rewrite T. unfold m. rewrite RtoC_opp. unfold Rdiv. rewrite RtoC_mult, !RtoC_plus, RtoC_inv by lra. field. split; assumption. }
  assert (Eb : - minors3 A / - (1) = RtoC (x' * y' + x' * z' + y' * z')).
  { rewrite M, !RtoC_plus, !RtoC_mult. field. assumption. }
  assert (Ec : det3 A / - (1) = RtoC (- (x' * y' * z'))).
  { rewrite D, RtoC_opp, !RtoC_mult. field. assumption. }
  assert (EQ : cubic_Q (RtoC (- m)) (RtoC (x' * y' + x' * z' + y' * z')) = RtoC q).
  { unfold cubic_Q, q. rewrite <- RtoC_div, <- RtoC_mult, <- RtoC_minus by lra. f_equal. field. }
  assert (ER : cubic_R (RtoC (- m)) (RtoC (x' * y' + x' * z' + y' * z')) (RtoC (- (x' * y' * z'))) = RtoC r).
  { unfold cubic_R, r. rewrite <- RtoC_opp, <- !RtoC_mult, <- RtoC_plus, <- RtoC_div, <- RtoC_plus by lra. f_equal. field. }
  destruct (Rlt_dec eps q) as [Big|Small].
  - destruct (mat3_exact eps arr He H1) as (roots2 & E2' & _ & _ & Ev2 & _).
    + fold A. unfold characteristic. cbv zeta. cbn [scaled]. right. left.
      match goal with |- (eps < Cmod (centred_q ?c1 ?c2 ?c3))%R => replace c1 with (- minors3 A) by (unfold minors3; ring); change c2 with (trace3 A) end.
      unfold centred_q. rewrite Ea, Eb. change (eps < Cmod (cubic_Q (RtoC (- m)) (RtoC (x' * y' + x' * z' + y' * z'))))%R. rewrite EQ, Cmod_R, Rabs_pos_eq by exact Q0. exact Big.
    + assert (roots2 = roots) as -> by (rewrite E in E2'; symmetry; apply ok_some_inj; exact E2').
      eapply Forall_impl; [|exact Ev2]. intros w Hw. pose proof (Pos w Hw). cbn beta. lra.
  - rewrite (mat3_cubic eps arr He H1) in E. fold A in E. apply ok_some_inj in E. rewrite <- E.
    apply (Permutation.Permutation_Forall (csort_permutation _)). unfold cubic. cbv zeta. rewrite Ea, Eb, Ec, EQ, ER.
    assert (ES : csqrt (RtoC r * RtoC r - RtoC q * RtoC q * RtoC q) = (0, sqrt (q * q * q - r * r))%R).
    { rewrite <- !RtoC_mult, <- RtoC_minus. replace (r * r - q * q * q)%R with (- (sqrt (q * q * q - r * r) * sqrt (q * q * q - r * r)))%R by (rewrite sqrt_sqrt by lra; ring).
      apply csqrt_minus_square, sqrt_pos. }
    assert (Sg : fst (Cconj (RtoC r) * (0, sqrt (q * q * q - r * r))%R) = 0%R) by (cbn; ring).
    assert (MA : (Cmod (cubic_A (RtoC q) (RtoC r)) * Cmod (cubic_A (RtoC q) (RtoC r)) = q)%R).
    { unfold cubic_A. cbv zeta. rewrite ES, Sg, Cmod_opp. unfold sign1. destruct (Rle_dec 0 0) as [_|F]; [|exfalso; apply F; lra].
      set (w := RtoC r + 1 * (0, sqrt (q * q * q - r * r))%R). pose proof (ccbrt_mod w) as Cb. set (t := Cmod (ccbrt w)) in *. assert (0 <= t)%R by apply Cmod_ge_0.
      assert (Cmod w * Cmod w = q * q * q)%R as W. { rewrite Cmod_sq. unfold w. cbn. pose proof (sqrt_sqrt (q * q * q - r * r) ltac:(lra)). nra. }
      rewrite <- Cb in W. assert (t * t * (t * t) * (t * t) = q * q * q)%R as W' by (rewrite <- W; ring).
      apply Rle_antisym; apply cube_le; try nra. }
    set (a := cubic_A (RtoC q) (RtoC r)) in *. pose proof (Cmod_ge_0 a) as Na.
    assert (La : (Cmod a <= sqrt eps)%R) by (apply Rsqr_incr_0_var; [unfold Rsqr; rewrite MA, sqrt_sqrt; lra|lra]).
    assert (Lm : (Cmod a <= m)%R) by (apply Rsqr_incr_0_var; [unfold Rsqr; rewrite MA; exact Qm|unfold m; lra]).
    assert (Lb : (Cmod (cubic_B eps (RtoC q) (RtoC r)) <= Cmod a)%R).
    { unfold cubic_B. cbv zeta. fold a. rewrite ES, Sg. unfold is_significant, Rltb. destruct (Rlt_dec (sqrt eps) (Cmod a)) as [F|_]; [lra|].
      unfold sign0. destruct (Rlt_dec 0 0) as [F|_]; [lra|]. rewrite Cmod_opp. set (w := RtoC r - 0 * (0, sqrt (q * q * q - r * r))%R).
      assert (w = RtoC r) as Ew by (unfold w; ring). pose proof (ccbrt_mod w) as Cb. rewrite Ew in *. rewrite Cmod_R in Cb. apply cube_le; [apply Cmod_ge_0|exact Na|]. rewrite Cb, MA.
      apply Rsqr_incr_0_var; [|apply Rmult_le_pos; assumption]. rewrite <- Rsqr_abs. unfold Rsqr. eapply Rle_trans; [exact Disc|]. apply Req_le. rewrite <- MA. ring. }
    set (b := cubic_B eps (RtoC q) (RtoC r)) in *.
    assert (G : forall t : C, Cmod t = 1%R -> (- sqrt eps <= fst (a * t + b * Cconj t - RtoC (- m))%C)%R).
    { intros t Ht. pose proof (Rabs_def2_le _ _ (Rle_trans _ _ _ (Rmax_l _ _) (Rmax_Cmod (a * t)))) as B1.
      pose proof (Rabs_def2_le _ _ (Rle_trans _ _ _ (Rmax_l _ _) (Rmax_Cmod (b * Cconj t)))) as B2.
      rewrite Cmod_mult, Ht in B1. rewrite Cmod_mult, Cmod_conj, Ht in B2. unfold Cminus, Cplus at 1 2, Copp, RtoC. cbn [fst]. lra. }
    cbn [map]. repeat apply Forall_cons; try apply Forall_nil; apply G; try apply cis_mod. apply Cmod_1.
Qed.
