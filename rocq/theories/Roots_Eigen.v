(** Eigenvalues of 3x3 matrices, and polynomials with small coefficients. *)
From Coq Require Import Reals List Arith Bool Lra Lia Permutation Sorted.
Require Import Verif.Base Verif.Cplx Verif.CSum Verif.Modes_Model Verif.Roots_Model Verif.Roots_Spec Verif.Roots_Formulas Verif.Roots_Proofs.
From Coquelicot Require Import Complex.
Import ListNotations.
Local Open Scope R_scope.
Local Open Scope C_scope.

Lemma characteristic_det A x : polynomial (characteristic A) x = det3 (minus_x A x).
Proof. rewrite polynomial_horner. unfold characteristic, det3, minus_x. cbn [horner Nat.eqb]. ring. Qed.

(** ** Kernels *)
Lemma opp_zero (a b : C) : b = 0 -> a = - b -> a = 0.
Proof. intros -> ->. ring. Qed.
Lemma lin3 (a p q r x y z : C) : x = 0 -> y = 0 -> z = 0 -> a = p * x + q * y + r * z -> a = 0.
Proof. intros -> -> -> ->. ring. Qed.
Lemma move (a b z : C) : z = 0 -> a - b = z -> a = b.
Proof. intros -> H. transitivity (a - b + b); [ring|]. rewrite H. ring. Qed.
Lemma move_back (a b z : C) : a = b -> z = a - b -> z = 0.
Proof. intros -> ->. ring. Qed.
Definition cross3 (u w : nat -> C) (k : nat) : C :=
  match k with
  | O => u 1%nat * w 2%nat - u 2%nat * w 1%nat
  | 1%nat => u 2%nat * w 0%nat - u 0%nat * w 2%nat
  | _ => u 0%nat * w 1%nat - u 1%nat * w 0%nat
  end.
Definition nonzero3 (u : nat -> C) : Prop := exists i, (i < 3)%nat /\ u i <> 0.
Lemma zero_or_not (u : nat -> C) : (u 0%nat = 0 /\ u 1%nat = 0 /\ u 2%nat = 0) \/ nonzero3 u.
Proof.
  destruct (is_zero (u 0%nat)) eqn:E0; [|right; exists 0%nat; split; [lia|intros F; apply is_zero_spec in F; congruence]].
  destruct (is_zero (u 1%nat)) eqn:E1; [|right; exists 1%nat; split; [lia|intros F; apply is_zero_spec in F; congruence]].
  destruct (is_zero (u 2%nat)) eqn:E2; [|right; exists 2%nat; split; [lia|intros F; apply is_zero_spec in F; congruence]].
  left. repeat split; apply is_zero_spec; assumption.
Qed.
Definition kernel (M : nat -> nat -> C) (v : nat -> C) : Prop := forall i, (i < 3)%nat -> csum 3 (fun j => M i j * v j) = 0.
Lemma kernel_from_row M (r : nat -> C) : nonzero3 r -> (forall i, (i < 3)%nat -> cross3 r (M i) 0 = 0 /\ cross3 r (M i) 1 = 0 /\ cross3 r (M i) 2 = 0) -> exists v, nonzero3 v /\ kernel M v.
Proof.
  intros (k & Hk & N) H. destruct (Nat.eq_dec k 2) as [->|K].
  - exists (fun j => match j with O => RtoC 0 | 1%nat => - r 2%nat | _ => r 1%nat end). split.
    + exists 1%nat. split; [lia|]. intros F. apply N. transitivity (- - r 2%nat); [ring|]. rewrite F. ring.
    + intros i Hi. destruct (H i Hi) as (H0 & _ & _). cbn [csum cross3] in *. etransitivity; [|exact H0]. ring.
  - exists (fun j => match j with O => - r 1%nat | 1%nat => r 0%nat | _ => RtoC 0 end). split.
    + destruct k as [|[|]]; [| |lia]; [exists 1%nat; split; [lia|exact N]|]. exists 0%nat. split; [lia|]. intros F. apply N. transitivity (- - r 1%nat); [ring|]. rewrite F. ring.
    + intros i Hi. destruct (H i Hi) as (_ & _ & H2). cbn [csum cross3] in *. etransitivity; [|exact H2]. ring.
Qed.
Ltac each3 i Hi := destruct i as [|[|[|]]]; [| | |exfalso; lia].
Lemma singular_kernel M : det3 M = 0 -> exists v, nonzero3 v /\ kernel M v.
Proof.
  intros D. unfold det3 in D.
  destruct (zero_or_not (cross3 (M 0%nat) (M 1%nat))) as [Z01|N].
  2: { eexists. split; [exact N|]. intros i Hi. each3 i Hi; cbn [csum cross3]; [ring|ring|etransitivity; [|exact D]; ring]. }
  destruct (zero_or_not (cross3 (M 0%nat) (M 2%nat))) as [Z02|N].
  2: { eexists. split; [exact N|]. intros i Hi. each3 i Hi; cbn [csum cross3]; [ring| |ring]. apply (opp_zero _ _ D). ring. }
  destruct (zero_or_not (cross3 (M 1%nat) (M 2%nat))) as [Z12|N].
  2: { eexists. split; [exact N|]. intros i Hi. each3 i Hi; cbn [csum cross3]; [etransitivity; [|exact D]; ring|ring|ring]. }
  assert (forall u w : nat -> C, cross3 u w 0 = 0 /\ cross3 u w 1 = 0 /\ cross3 u w 2 = 0 -> cross3 w u 0 = 0 /\ cross3 w u 1 = 0 /\ cross3 w u 2 = 0) as Sy.
  { intros u w (H0 & H1 & H2). cbn [cross3] in *. repeat split; [apply (opp_zero _ _ H0)|apply (opp_zero _ _ H1)|apply (opp_zero _ _ H2)]; ring. }
  assert (forall u : nat -> C, cross3 u u 0 = 0 /\ cross3 u u 1 = 0 /\ cross3 u u 2 = 0) as Se by (intros u; cbn [cross3]; repeat split; ring).
  destruct (zero_or_not (M 0%nat)) as [Z0|N]; [|apply (kernel_from_row M (M 0%nat) N); intros i Hi; each3 i Hi; auto].
  destruct (zero_or_not (M 1%nat)) as [Z1|N]; [|apply (kernel_from_row M (M 1%nat) N); intros i Hi; each3 i Hi; auto].
  destruct (zero_or_not (M 2%nat)) as [Z2|N]; [|apply (kernel_from_row M (M 2%nat) N); intros i Hi; each3 i Hi; auto].
  exists (fun _ => RtoC 1). split; [exists 0%nat; split; [lia|apply RtoC_neq; lra]|]. destruct Z0 as (E00 & E01 & E02), Z1 as (E10 & E11 & E12), Z2 as (E20 & E21 & E22).
  intros i Hi. each3 i Hi; cbn [csum]; rewrite ?E00, ?E01, ?E02, ?E10, ?E11, ?E12, ?E20, ?E21, ?E22; ring.
Qed.
Lemma det_eigenvalue A x : det3 (minus_x A x) = 0 <-> eigenvalue A x.
Proof.
  split.
  - intros D. destruct (singular_kernel _ D) as (v & N & K). exists v. split; [exact N|]. intros i Hi. specialize (K i Hi). unfold minus_x in K. cbn [csum] in *.
    each3 i Hi; cbn [Nat.eqb] in K; apply (move _ _ _ K); ring.
  - intros (v & (k & Hk & N) & K).
    assert (det3 (minus_x A x) * v k = 0) as F; [|apply C_integral in F as [F|F]; [exact F|contradiction]].
    pose proof (K 0%nat ltac:(lia)) as K0. pose proof (K 1%nat ltac:(lia)) as K1. pose proof (K 2%nat ltac:(lia)) as K2. cbn [csum] in K0, K1, K2.
    set (M := minus_x A x).
    assert (M 0%nat 0%nat * v 0%nat + M 0%nat 1%nat * v 1%nat + M 0%nat 2%nat * v 2%nat = 0) as L0 by (apply (move_back _ _ _ K0); unfold M, minus_x; cbn [Nat.eqb]; ring).
    assert (M 1%nat 0%nat * v 0%nat + M 1%nat 1%nat * v 1%nat + M 1%nat 2%nat * v 2%nat = 0) as L1 by (apply (move_back _ _ _ K1); unfold M, minus_x; cbn [Nat.eqb]; ring).
    assert (M 2%nat 0%nat * v 0%nat + M 2%nat 1%nat * v 1%nat + M 2%nat 2%nat * v 2%nat = 0) as L2 by (apply (move_back _ _ _ K2); unfold M, minus_x; cbn [Nat.eqb]; ring).
    unfold det3. each3 k Hk.
    + apply (lin3 _ (cross3 (M 1%nat) (M 2%nat) 0) (cross3 (M 2%nat) (M 0%nat) 0) (cross3 (M 0%nat) (M 1%nat) 0) _ _ _ L0 L1 L2). cbn [cross3]. ring.
    + apply (lin3 _ (cross3 (M 1%nat) (M 2%nat) 1) (cross3 (M 2%nat) (M 0%nat) 1) (cross3 (M 0%nat) (M 1%nat) 1) _ _ _ L0 L1 L2). cbn [cross3]. ring.
    + apply (lin3 _ (cross3 (M 1%nat) (M 2%nat) 2) (cross3 (M 2%nat) (M 0%nat) 2) (cross3 (M 0%nat) (M 1%nat) 2) _ _ _ L0 L1 L2). cbn [cross3]. ring.
Qed.

(** ** Hermitian matrices *)
Lemma hermitian_form A (v : nat -> C) : hermitian A -> let h := csum 3 (fun i => Cconj (v i) * csum 3 (fun j => A i j * v j)) in Cconj h = h.
Proof.
  intros H. cbv zeta. assert (forall i j, (i < 3)%nat -> (j < 3)%nat -> Cconj (A i j) = A j i) as K by (intros; symmetry; apply H; assumption).
  cbn [csum]. rewrite !Cconj_plus, !Cconj_mult, !Cconj_plus, !Cconj_mult, !Cconj_conj, !Cconj_R, !K by lia. ring.
Qed.
Lemma sum_squares_pos (v : nat -> C) : nonzero3 v -> exists n : R, (0 < n)%R /\ csum 3 (fun i => Cconj (v i) * v i) = RtoC n.
Proof.
  intros (k & Hk & N). assert (forall z : C, Cconj z * z = RtoC (Cmod z * Cmod z)) as S. { intros z. rewrite Cmod_sq. unfold Cconj, Cmult, RtoC; cbn. f_equal; ring. }
  exists (Cmod (v 0%nat) * Cmod (v 0%nat) + Cmod (v 1%nat) * Cmod (v 1%nat) + Cmod (v 2%nat) * Cmod (v 2%nat))%R. split.
  - assert (0 < Cmod (v k))%R by (apply Cmod_gt_0; exact N). pose proof (Cmod_ge_0 (v 0%nat)). pose proof (Cmod_ge_0 (v 1%nat)). pose proof (Cmod_ge_0 (v 2%nat)). each3 k Hk; nra.
  - cbn [csum]. rewrite !S, !RtoC_plus. ring.
Qed.
Lemma hermitian_real A x : hermitian A -> eigenvalue A x -> snd x = 0%R.
Proof.
  intros H (v & N & K). pose proof (hermitian_form A v H) as F. cbv zeta in F.
  rewrite (csum_ext 3 _ (fun i => x * (Cconj (v i) * v i))) in F by (intros i Hi; rewrite K by exact Hi; ring). rewrite csum_scal in F.
  destruct (sum_squares_pos v N) as (n & Pn & E). rewrite E, Cconj_mult, Cconj_R in F. unfold Cconj, Cmult, RtoC in F. injection F as F1 F2. cbn in F2. nra.
Qed.

(** ** mat3_eigh *)
Lemma eigenvalues_of_roots A roots : has_roots (characteristic A) roots -> (forall x, det3 (minus_x A x) = - product_of roots x) /\ Forall (eigenvalue A) roots.
Proof.
  intros H. assert (forall x, det3 (minus_x A x) = - product_of roots x) as K. { intros x. rewrite <- characteristic_det, (H x). unfold characteristic. cbn [last]. ring. }
  split; [exact K|]. apply Forall_forall. intros x Hx. apply det_eigenvalue. rewrite K, product_root by exact Hx. ring.
Qed.
Theorem mat3_exact eps (arr : list nat -> C) : let A := fun i j => arr [i; j] in (0 < eps)%R -> (2 * eps <= 1)%R -> scaled eps (characteristic A) ->
  exists roots, mat3_eigh eps [3%nat; 3%nat] arr = Ok (map Some roots) /\ StronglySorted cle roots /\ (forall x, det3 (minus_x A x) = - product_of roots x) /\ Forall (eigenvalue A) roots /\
    (hermitian A -> Forall (fun x => snd x = 0%R) roots).
Proof.
  intros A He H1 S. destruct (roots_found eps (characteristic A) [] He) as (roots & E & So & Hr).
  - unfold characteristic. cbn. lia.
  - discriminate.
  - unfold characteristic. cbn [last]. rewrite Cmod_opp, Cmod_1. exact H1.
  - constructor.
  - exact S.
  - left. reflexivity.
  - rewrite app_nil_r in E. cbn [length repeat] in E. rewrite app_nil_r in E. exists roots. destruct (eigenvalues_of_roots A roots Hr) as [K1 K2].
    split; [exact E|]. split; [exact So|]. split; [exact K1|]. split; [exact K2|]. intros Hm. eapply Forall_impl; [|exact K2]. intros x. apply hermitian_real, Hm.
Qed.
Theorem mat3_near eps (arr : list nat -> C) : let A := fun i j => arr [i; j] in (0 < eps)%R -> (2 * eps <= 1)%R ->
  exists roots exact, mat3_eigh eps [3%nat; 3%nat] arr = Ok (map Some roots) /\ (forall x, det3 (minus_x A x) = - product_of exact x) /\ Forall (eigenvalue A) exact /\
    Forall2 (fun x y => (Cmod (x - y)%C <= 2 * sqrt eps)%R) roots exact.
Proof.
  intros A He H1. pose proof (fun c0 c1 c2 => cubic_roots_near eps c0 c1 c2 (- (1)) He ltac:(rewrite Cmod_opp, Cmod_1; exact H1)) as K.
  unfold mat3_eigh. cbn [Nat.eqb andb]. fold A. pose proof (eigenvalues_of_roots A) as G. unfold characteristic in *. cbv zeta in *.
  match goal with |- context [roots_of eps [?c0; ?c1; ?c2; _]] => destruct (K c0 c1 c2) as (roots & exact & E & So & Hr & D) end.
  exists roots, exact. split; [exact E|]. destruct (G exact Hr) as [K1 K2]. auto.
Qed.

(** ** Small coefficients *)
Lemma csqrt_minus_square e : (0 <= e)%R -> csqrt (RtoC (- (e * e))) = (0, e)%R.
Proof.
  intros H. unfold csqrt. rewrite Cmod_R, Rabs_left1 by nra. unfold RtoC; cbn [fst snd]. replace ((- - (e * e) + - (e * e)) / 2)%R with 0%R by field. replace ((- - (e * e) - - (e * e)) / 2)%R with (e * e)%R by field.
  rewrite sqrt_0. destruct (Rlt_dec 0 0); [lra|]. rewrite sqrt_square by exact H. rewrite Rmult_1_l. reflexivity.
Qed.
Theorem small_quadratic eps e : (0 < eps)%R -> (2 * eps <= e)%R -> (e <= sqrt eps)%R ->
  exists roots, roots_of eps [RtoC e; RtoC 0; RtoC e] = Ok (map Some roots) /\ exists r, In r roots /\ polynomial [RtoC e; RtoC 0; RtoC e] r <> 0.
Proof.
  intros He H1 H2. assert (0 < e)%R as P by lra.
  pose proof (add_roots_spec eps [RtoC e; RtoC 0; RtoC e] [] (Forall_nil _) ltac:(discriminate) ltac:(cbn [last]; rewrite Cmod_R, Rabs_pos_eq; lra)) as E. cbn [app length repeat] in E. rewrite (roots_of_formula eps _ _ _ E) by (cbn; lia). cbn [formula].
  unfold remove_roots. rewrite remove_zeros_none. cbn [fst]. rewrite (nan_sort_spec _ _ 0 (values_some _)) by (rewrite map_length; lia). cbn [repeat]. rewrite app_nil_r. eexists. split; [reflexivity|].
  assert (quadratic_q (RtoC e) (RtoC 0) (RtoC e) = (0, - e)%R) as Q.
  { unfold quadratic_q. replace (RtoC 0 * RtoC 0 - RtoC 4 * RtoC e * RtoC e) with (RtoC (- ((2 * e) * (2 * e)))) by (rewrite RtoC_opp, !RtoC_mult, four_eq, two_eq; ring). rewrite csqrt_minus_square by lra.
    replace (fst (Cconj 0 * (0%R, (2 * e)%R))) with 0%R by (unfold Cconj, Cmult, RtoC; cbn; ring). unfold sign1. destruct (Rle_dec 0 0); [|lra].
    rewrite two_eq. transitivity ((- (1) / (1 + 1)) * (0, 2 * e)%R); [ring|]. replace (- (1) / (1 + 1)) with (RtoC (- / 2)); [unfold Cmult, RtoC; cbn; f_equal; field|]. rewrite RtoC_opp, RtoC_inv by lra. rewrite two_eq. unfold Cdiv. ring. }
  set (q := (0, (- e))%R : C) in *. assert (q + 1 = (1, (- e))%R) as Ed by (unfold q, Cplus, RtoC; cbn; f_equal; lra).
  exists (RtoC e / (q + 1)). split.
  - apply (Permutation_in _ (csort_permutation _)). unfold quadratic. rewrite Q. right. left. f_equal. f_equal.
    assert (is_significant eps (RtoC e) = false) as -> by (apply insignificant_spec; rewrite Cmod_R, Rabs_pos_eq; lra).
    assert (is_significant eps q = false) as ->; [|reflexivity]. apply insignificant_spec. unfold Cmod, q. cbn [fst snd]. replace (0 ^ 2 + (- e) ^ 2)%R with (e * e)%R by ring. rewrite sqrt_square; lra.
  - rewrite polynomial_horner. cbn [horner]. assert (q + 1 <> 0) as N by (rewrite Ed; intros F; apply (f_equal fst) in F; cbn in F; lra). set (d := q + 1) in *. intros F.
    assert (RtoC e * (d * d + RtoC e * RtoC e) = 0) as G.
    { transitivity (d * d * (RtoC e + RtoC e / d * (RtoC 0 + RtoC e / d * (RtoC e + RtoC e / d * 0)))); [field; exact N|]. rewrite F. ring. }
    rewrite Ed in G. apply (f_equal snd) in G. unfold Cmult, Cplus, RtoC in G; cbn in G. nra.
Qed.
Lemma coefficients_shifted eps low high : (0 < eps)%R -> low <> [] -> high <> [] -> (2 * eps <= Cmod (last low (RtoC 0)))%R -> Forall (fun c => (Cmod c < 2 * eps)%R) high ->
  coefficients_after eps (low ++ high) = repeat (RtoC 0) (length high) ++ low.
Proof.
  intros He Hl Hh Hc F. unfold coefficients_after. rewrite app_length. destruct (Nat.ltb_spec (length low + length high) 2) as [K|_]; [destruct low; [contradiction|]; destruct high; [contradiction|]; cbn in K; lia|].
  rewrite add_roots_spec by assumption. reflexivity.
Qed.
