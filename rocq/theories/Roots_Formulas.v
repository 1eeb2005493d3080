(** The formulas for the roots. *)
From Coq Require Import Reals List Arith Bool Lra Lia Permutation Sorted.
Require Import Verif.Base Verif.Cplx Verif.CSum Verif.Fourier_Model Verif.Fourier_Proofs Verif.Display_Model Verif.Display_Proofs Verif.Modes_Model Verif.Roots_Model Verif.Roots_Spec.
From Coquelicot Require Import Complex.
Import ListNotations.
Local Open Scope R_scope.
Local Open Scope C_scope.

(** ** Products of linear factors, as lists of coefficients *)
Fixpoint pm (r prev : C) (P : list C) : list C := match P with [] => [prev] | p :: P' => (prev - r * p) :: pm r p P' end.
Fixpoint poly_of (c : C) (X : list C) : list C := match X with [] => [c] | r :: X' => pm r 0 (poly_of c X') end.
Fixpoint horner (P : list C) (x : C) : C := match P with [] => 0 | p :: P' => p + x * horner P' x end.

Lemma csum_shift n (f : nat -> C) : csum (Datatypes.S n) f = f 0%nat + csum n (fun i => f (Datatypes.S i)).
Proof. induction n as [|n IH]; [cbn; ring|]. change (csum (Datatypes.S (Datatypes.S n)) f) with (csum (Datatypes.S n) f + f (Datatypes.S n)). rewrite IH. cbn [csum]. ring. Qed.
Lemma polynomial_horner l x : polynomial l x = horner l x.
Proof.
  unfold polynomial. induction l as [|c l IH]; [reflexivity|]. cbn [length horner]. rewrite csum_shift, <- IH. cbn [nth cpow]. rewrite <- csum_scal. f_equal; [ring|].
  apply csum_ext. intros i _. ring.
Qed.
Lemma horner_pm r prev P x : horner (pm r prev P) x = prev + (x - r) * horner P x.
Proof. revert prev. induction P as [|p P IH]; intros prev; cbn [pm horner]; [ring|]. rewrite IH. ring. Qed.
Lemma horner_poly_of c X x : horner (poly_of c X) x = c * product_of X x.
Proof. induction X as [|r X IH]; cbn [poly_of horner product_of fold_right]; [ring|]. rewrite horner_pm, IH. unfold product_of. ring. Qed.
Lemma pm_nonempty r prev P : pm r prev P <> [].
Proof. destruct P; discriminate. Qed.
Lemma last_pm r prev P d : P <> [] -> last (pm r prev P) d = last P d.
Proof.
  revert prev. induction P as [|p P IH]; intros prev H; [congruence|]. cbn [pm]. destruct P as [|p' P]; [reflexivity|]. specialize (IH p ltac:(discriminate)).
  remember (pm r p (p' :: P)) as L. destruct L as [|y L]; [symmetry in HeqL; apply pm_nonempty in HeqL; contradiction|]. cbn [last] in *. exact IH.
Qed.
Lemma poly_of_nonempty c X : poly_of c X <> [].
Proof. destruct X; [discriminate|apply pm_nonempty]. Qed.
Lemma last_poly_of c X d : last (poly_of c X) d = c.
Proof. induction X as [|r X IH]; [reflexivity|]. cbn [poly_of]. rewrite last_pm by apply poly_of_nonempty. exact IH. Qed.
Lemma length_pm r prev P : length (pm r prev P) = Datatypes.S (length P).
Proof. revert prev. induction P as [|p P IH]; intros; cbn; [reflexivity|]. rewrite IH. reflexivity. Qed.
Lemma length_poly_of c X : length (poly_of c X) = Datatypes.S (length X).
Proof. induction X as [|r X IH]; [reflexivity|]. cbn [poly_of]. rewrite length_pm, IH. reflexivity. Qed.
Lemma poly_of_roots c X : has_roots (poly_of c X) X.
Proof. intros x. rewrite polynomial_horner, horner_poly_of, last_poly_of. reflexivity. Qed.
Lemma pm_zero prev P : pm 0 prev P = prev :: P.
Proof. revert prev. induction P as [|p P IH]; intros prev; [reflexivity|]. cbn [pm]. rewrite IH. f_equal. ring. Qed.
Lemma pm_swap r s v w P : pm r (w - s * v) (pm s v P) = pm s (w - r * v) (pm r v P).
Proof. revert v w. induction P as [|p P IH]; intros v w; cbn [pm]; [f_equal; ring|]. f_equal; [ring|]. apply IH. Qed.
Lemma poly_of_permutation c X Y : Permutation X Y -> poly_of c X = poly_of c Y.
Proof.
  induction 1 as [|r X Y _ IH|r s X|X Y Z _ IH1 _ IH2]; [reflexivity|cbn; rewrite IH; reflexivity| |congruence].
  cbn [poly_of]. pose proof (pm_swap s r 0 0 (poly_of c X)) as K. replace (0 - r * 0) with (RtoC 0) in K by ring. replace (0 - s * 0) with (RtoC 0) in K by ring. exact K.
Qed.
Lemma poly_of_hd c X : hd (RtoC 0) (poly_of c X) = fold_right (fun r (acc : C) => - r * acc) c X.
Proof.
  induction X as [|r X IH]; [reflexivity|]. cbn [poly_of fold_right]. rewrite <- IH. pose proof (poly_of_nonempty c X). destruct (poly_of c X); [contradiction|]. cbn [pm hd]. ring.
Qed.
Lemma C_integral (a b : C) : a * b = 0 -> a = 0 \/ b = 0.
Proof.
  intros H. destruct (Req_EM_T (Cmod a) 0) as [E|N]; [left; apply Cmod_eq_0; exact E|right]. apply Cmod_eq_0. pose proof (f_equal Cmod H) as K. rewrite Cmod_mult, Cmod_0 in K. nra.
Qed.
Lemma zero_root (c : C) X P : c <> 0 -> poly_of c X = RtoC 0 :: P -> exists X', Permutation X (RtoC 0 :: X') /\ poly_of c X' = P.
Proof.
  intros Hc H. assert (In (RtoC 0) X) as Hin.
  { pose proof (poly_of_hd c X) as K. rewrite H in K. cbn [hd] in K. symmetry in K. clear H. induction X as [|r X IH]; [exfalso; exact (Hc K)|]. cbn [fold_right] in K.
    apply C_integral in K as [K|K]; [left; replace r with (- - r) by ring; rewrite K; ring|right; apply IH, K]. }
  apply in_split in Hin as (X1 & X2 & ->). exists (X1 ++ X2). assert (Permutation (X1 ++ RtoC 0 :: X2) (RtoC 0 :: X1 ++ X2)) as Pm by (symmetry; apply Permutation_middle).
  split; [exact Pm|]. rewrite (poly_of_permutation _ _ _ Pm) in H. cbn [poly_of] in H. rewrite pm_zero in H. injection H as H. exact H.
Qed.
Lemma zero_roots (c : C) X k P : c <> 0 -> poly_of c X = repeat (RtoC 0) k ++ P -> exists X', Permutation X (repeat (RtoC 0) k ++ X') /\ poly_of c X' = P.
Proof.
  intros Hc. revert X. induction k as [|k IH]; intros X H; [exists X; split; [reflexivity|exact H]|].
  cbn [repeat app] in H. apply zero_root in H as (X' & Q & H); [|exact Hc]. apply IH in H as (X2 & Q2 & H). exists X2. split; [|exact H]. rewrite Q. cbn [repeat app]. apply perm_skip, Q2.
Qed.

(** ** Moduli *)
Lemma Cmod_le (z w : C) : (fst z * fst z + snd z * snd z <= fst w * fst w + snd w * snd w)%R -> (Cmod z <= Cmod w)%R.
Proof. intros H. rewrite <- !Cmod_sq in H. pose proof (Cmod_ge_0 z). pose proof (Cmod_ge_0 w). nra. Qed.
Lemma sign1_cases x : ((0 <= x)%R /\ sign1 x = 1) \/ ((x < 0)%R /\ sign1 x = - (1)).
Proof. unfold sign1. destruct (Rle_dec 0 x); [left; auto|right]. split; [lra|reflexivity]. Qed.
Lemma sign1_sq x : sign1 x * sign1 x = 1.
Proof. destruct (sign1_cases x) as [[_ ->]|[_ ->]]; ring. Qed.
Section Larger.
  Variables z w : C.
  Let s := sign1 (fst (Cconj z * w)).
  Lemma larger_facts : exists e : R, s = RtoC e /\ (e = 1 \/ e = -1)%R /\ (0 <= e * (fst z * fst w + snd z * snd w))%R.
  Proof.
    unfold s. assert (fst (Cconj z * w)%C = fst z * fst w + snd z * snd w)%R as E by (unfold Cmult, Cconj; cbn; ring).
    destruct (sign1_cases (fst (Cconj z * w))) as [[H ->]|[H ->]]; rewrite E in H; [exists 1%R|exists (-1)%R]; repeat split; auto; try lra. rewrite <- RtoC_opp. reflexivity.
  Qed.
  Lemma larger_first : (Cmod z <= Cmod (z + s * w)%C)%R.
  Proof. destruct larger_facts as (e & -> & He & H). apply Cmod_le. unfold Cplus, Cmult, RtoC; cbn. destruct He; subst; nra. Qed.
  Lemma larger_minus : (Cmod (z - s * w)%C <= Cmod (z + s * w)%C)%R.
  Proof. destruct larger_facts as (e & -> & He & H). apply Cmod_le. unfold Cminus, Copp, Cplus, Cmult, RtoC; cbn. destruct He; subst; nra. Qed.
  Lemma larger_second : (Cmod w <= Cmod (z + s * w)%C)%R.
  Proof. destruct larger_facts as (e & -> & He & H). apply Cmod_le. unfold Cplus, Cmult, RtoC; cbn. destruct He; subst; nra. Qed.
  Lemma larger_zero : (Cmod (z - sign0 (fst (Cconj z * w)) * w)%C <= Cmod (z + s * w)%C)%R.
  Proof.
    pose proof larger_first as L1. pose proof larger_minus as L2. unfold s, sign1, sign0 in *. destruct (Rle_dec 0 (fst (Cconj z * w)%C)), (Rlt_dec 0 (fst (Cconj z * w)%C)); try lra.
    - destruct (Rlt_dec (fst (Cconj z * w)%C) 0); [lra|]. replace (z - 0 * w) with z by ring. exact L1.
    - destruct (Rlt_dec (fst (Cconj z * w)%C) 0); [exact L2|lra].
  Qed.
End Larger.
Lemma significant_spec eps z : is_significant eps z = true <-> (sqrt eps < Cmod z)%R.
Proof. unfold is_significant, Rltb. destruct (Rlt_dec _ _); split; auto; discriminate. Qed.
Lemma insignificant_spec eps z : is_significant eps z = false <-> (Cmod z <= sqrt eps)%R.
Proof. unfold is_significant, Rltb. destruct (Rlt_dec _ _); split; auto; try discriminate; lra. Qed.

(** ** First and second order *)
Lemma linear_roots (c0 c1 : C) : c1 <> 0 -> poly_of c1 (linear c0 c1) = [c0; c1].
Proof. intros H. cbn. f_equal. field. exact H. Qed.
Lemma RtoC_neq x : (x <> 0)%R -> RtoC x <> 0.
Proof. intros H E. apply RtoC_inj in E. contradiction. Qed.
Lemma two_eq : RtoC 2 = 1 + 1.
Proof. rewrite <- RtoC_plus; f_equal; lra. Qed.
Lemma three_eq : RtoC 3 = 1 + 1 + 1.
Proof. rewrite <- !RtoC_plus; f_equal; lra. Qed.
Lemma four_eq : RtoC 4 = (1 + 1) * (1 + 1).
Proof. rewrite <- !RtoC_plus, <- RtoC_mult; f_equal; lra. Qed.
Ltac cnz := repeat split; let E := fresh in intros E; apply (f_equal fst) in E; cbn in E; lra.
Lemma two_neq : 1 + 1 <> 0.
Proof. rewrite <- two_eq. apply RtoC_neq. lra. Qed.
Lemma three_neq : 1 + 1 + 1 <> 0.
Proof. rewrite <- three_eq. apply RtoC_neq. lra. Qed.
Lemma quadratic_q_root c0 c1 c2 : let q := quadratic_q c0 c1 c2 in q * q + c1 * q + c0 * c2 = 0.
Proof.
  cbv zeta. unfold quadratic_q. set (d := c1 * c1 - RtoC 4 * c2 * c0). set (sg := sign1 _). assert (csqrt d * csqrt d = d) as S2 by apply csqrt_sq. assert (sg * sg = 1) as G by apply sign1_sq. set (s := csqrt d) in *.
  transitivity ((s * s * (sg * sg) - c1 * c1) / RtoC 4 + c0 * c2).
  - rewrite four_eq, two_eq. field. cnz.
  - rewrite S2, G. unfold d. rewrite four_eq. field. cnz.
Qed.
Lemma quadratic_q_large c0 c1 c2 : let q := quadratic_q c0 c1 c2 in (Cmod c1 <= 2 * Cmod q)%R /\ (Cmod (c0 * c2)%C <= Cmod q * Cmod q)%R.
Proof.
  cbv zeta. pose proof (quadratic_q_root c0 c1 c2) as Q0. cbv zeta in Q0. unfold quadratic_q in *. set (s := csqrt (c1 * c1 - RtoC 4 * c2 * c0)) in *. set (sg := sign1 (fst (Cconj c1 * s))) in *.
  pose proof (larger_first c1 s) as L1. pose proof (larger_minus c1 s) as L2. fold sg in L1, L2.
  assert (forall z, Cmod (- (1) / RtoC 2 * z)%C = (Cmod z / 2)%R) as M.
  { intros z. rewrite Cmod_mult. replace (- (1) / RtoC 2) with (RtoC (- / 2)) by (rewrite RtoC_opp, RtoC_inv by lra; unfold Cdiv; ring). rewrite Cmod_R. rewrite Rabs_left by lra. field. }
  split; [rewrite M; lra|].
  replace (c0 * c2) with (- (1) / RtoC 2 * (c1 - sg * s) * (- (1) / RtoC 2 * (c1 + sg * s))).
  - rewrite Cmod_mult, !M. pose proof (Cmod_ge_0 (c1 + sg * s)). nra.
  - set (q := - (1) / RtoC 2 * (c1 + sg * s)) in *. assert (c0 * c2 = - (q * (q + c1))) as ->.
    { transitivity (q * q + c1 * q + c0 * c2 - q * (q + c1)); [ring|]. rewrite Q0. ring. }
    unfold q. rewrite two_eq. field. cnz.
Qed.
Lemma quadratic_roots eps (c0 c1 c2 : C) : (0 < eps)%R -> c2 <> 0 -> scaled2 eps c0 c1 c2 -> poly_of c2 (quadratic eps c0 c1 c2) = [c0; c1; c2].
Proof.
  intros He H2 Sc. unfold quadratic. pose proof (quadratic_q_root c0 c1 c2) as Q0. pose proof (quadratic_q_large c0 c1 c2) as [L1 L2]. set (q := quadratic_q c0 c1 c2) in *.
  assert (0 < sqrt eps)%R as Hs by (apply sqrt_lt_R0; exact He). assert (sqrt eps * sqrt eps = eps)%R as Hss by (apply sqrt_sqrt; lra).
  destruct (negb (is_significant eps c0) && negb (is_significant eps q)) eqn:E.
  - apply andb_prop in E as [E1 E2]. apply negb_true_iff, insignificant_spec in E1, E2.
    assert (c0 = 0) as Z. { destruct Sc as [Sc|[Sc|[Sc|Sc]]]; [exact Sc|lra|lra|]. pose proof (Cmod_ge_0 q). nra. }
    assert (q = - c1) as Hq.
    { rewrite Z in Q0. assert (q * (q + c1) = 0) as F by (etransitivity; [|exact Q0]; ring). apply C_integral in F as [F|F].
      - rewrite F, Cmod_0 in L1. pose proof (Cmod_ge_0 c1). assert (c1 = 0) as -> by (apply Cmod_eq_0; lra). rewrite F. ring.
      - transitivity (q + c1 - c1); [ring|]. rewrite F. ring. }
    cbn [poly_of pm]. rewrite Hq, Z. unfold Cdiv. f_equal; [ring|]. f_equal. rewrite Cmult_0_l. field. exact H2.
  - assert (q <> 0) as Hq.
    { intros K. rewrite K in *. rewrite Cmod_0 in L2. assert (Cmod (c0 * c2)%C = 0)%R as M by (pose proof (Cmod_ge_0 (c0 * c2)); lra). rewrite Cmod_mult in M.
      assert (Cmod c2 <> 0)%R by (intros F; apply Cmod_eq_0 in F; contradiction). assert (Cmod c0 = 0)%R as M0 by nra.
      apply andb_false_iff in E as [E|E]; apply negb_false_iff, significant_spec in E; [lra|]. rewrite Cmod_0 in E. lra. }
    cbn [poly_of pm]. replace (q + 0) with q by ring. f_equal; [field; split; assumption|]. f_equal. 
    transitivity (c1 - (q * q + c1 * q + c0 * c2) / q); [|rewrite Q0; unfold Cdiv; ring]. field. split; assumption.
Qed.

(** ** Third order *)
Lemma ccbrt_cube z : ccbrt z * ccbrt z * ccbrt z = z.
Proof.
  unfold ccbrt. destruct (Req_EM_T (Cmod z) 0) as [E|N]; [apply Cmod_eq_0 in E; rewrite E; ring|].
  assert (0 < Cmod z)%R as P by (pose proof (Cmod_ge_0 z); lra).
  transitivity (RtoC (Rpower (Cmod z) (/ 3) * Rpower (Cmod z) (/ 3) * Rpower (Cmod z) (/ 3)) * (cis (np_angle z / 3) * cis (np_angle z / 3) * cis (np_angle z / 3))); [rewrite !RtoC_mult; ring|].
  rewrite <- !Rpower_plus, <- !cis_plus. replace (/ 3 + / 3 + / 3)%R with 1%R by field. replace (np_angle z / 3 + np_angle z / 3 + np_angle z / 3)%R with (np_angle z) by field.
  rewrite Rpower_1 by exact P. destruct (np_angle_polar z) as [_ K]. rewrite K at 3. unfold cis, Cmult, RtoC; cbn. f_equal; ring.
Qed.
Lemma ccbrt_mod z : (Cmod (ccbrt z) * Cmod (ccbrt z) * Cmod (ccbrt z) = Cmod z)%R.
Proof. rewrite <- !Cmod_mult, ccbrt_cube. reflexivity. Qed.
Lemma cube_le x y : (0 <= x)%R -> (0 <= y)%R -> (x * x * x <= y * y * y)%R -> (x <= y)%R.
Proof.
  intros Hx Hy H. destruct (Rle_lt_dec x y) as [L|L]; [exact L|]. exfalso. assert (0 < (x - y) * (x * x + x * y + y * y))%R by (apply Rmult_lt_0_compat; nra). nra.
Qed.

Definition third : C := cis (2 * PI / 3).
Lemma third_value : third = (-1 / 2, sqrt 3 / 2)%R.
Proof. unfold third, cis. replace (2 * PI / 3)%R with (2 * (PI / 3))%R by field. rewrite cos_2PI3, sin_2PI3. reflexivity. Qed.
Lemma third_sq : third * third + third + 1 = 0.
Proof. rewrite third_value. assert (sqrt 3 * sqrt 3 = 3)%R by (apply sqrt_sqrt; lra). unfold Cmult, Cplus, RtoC; cbn. f_equal; nra. Qed.
Lemma third_conj : Cconj third = - (1) - third.
Proof. rewrite third_value. unfold Cconj, Cminus, Copp, Cplus, RtoC; cbn. f_equal; lra. Qed.

Section Cardano.
  Variables (Q R : C).
  Let S := csqrt (R * R - Q * Q * Q).
  Let sg := sign1 (fst (Cconj R * S)).
  Let A := cubic_A Q R.
  Lemma S_sq : S * S = R * R - Q * Q * Q.
  Proof. apply csqrt_sq. Qed.
  Lemma A_cube : A * A * A = - (R + sg * S).
  Proof. unfold A, cubic_A. fold S. fold sg. transitivity (- (ccbrt (R + sg * S) * ccbrt (R + sg * S) * ccbrt (R + sg * S))); [ring|]. rewrite ccbrt_cube. reflexivity. Qed.
  Lemma A_mod3 : (Cmod A * Cmod A * Cmod A = Cmod (R + sg * S)%C)%R.
  Proof. rewrite <- !Cmod_mult, A_cube, Cmod_opp. reflexivity. Qed.
  Lemma A_zero : A = 0 -> Q = 0 /\ R = 0 /\ S = 0.
  Proof.
    intros H. pose proof A_mod3 as M. rewrite H, Cmod_0 in M. replace (0 * 0 * 0)%R with 0%R in M by ring. pose proof (larger_first R S) as L1. pose proof (larger_second R S) as L2. fold sg in L1, L2.
    assert (R = 0) as R0 by (apply Cmod_eq_0; pose proof (Cmod_ge_0 R); lra). assert (S = 0) as S0 by (apply Cmod_eq_0; pose proof (Cmod_ge_0 S); lra).
    repeat split; try assumption. pose proof S_sq as K. rewrite S0, R0 in K. assert (Q * (Q * Q) = 0) as F by (transitivity (0 * 0 - (0 * 0 - Q * Q * Q)); [ring|rewrite <- K; ring]).
    apply C_integral in F as [F|F]; [exact F|]. apply C_integral in F as [F|F]; exact F.
  Qed.
  (** The partner of A. *)
  Lemma partner B : A <> 0 -> A * B = Q -> A * A * A + B * B * B = - (RtoC 2 * R) /\ (Cmod B <= Cmod A)%R.
  Proof.
    intros H0 HB. assert (A * A * A * (B * B * B) = Q * Q * Q) as K by (rewrite <- HB; ring). assert (A * A * A <> 0) as H3. { intros F. apply C_integral in F as [F|F]; [apply C_integral in F as [F|F]|]; contradiction. }
    assert (B * B * B = - (R - sg * S)) as KB.
    { assert (sg * sg = 1) as G by apply sign1_sq. pose proof S_sq as S2. pose proof A_cube as AC.
      assert (A * A * A * (B * B * B + (R - sg * S)) = 0) as F.
      { transitivity (A * A * A * (B * B * B) + (A * A * A) * (R - sg * S)); [ring|]. rewrite K, AC. transitivity (Q * Q * Q - R * R + sg * sg * (S * S)); [ring|]. rewrite G, S2. ring. }
      apply C_integral in F as [F|F]; [contradiction|]. transitivity (B * B * B + (R - sg * S) - (R - sg * S)); [ring|]. rewrite F. ring. }
    split; [rewrite KB, A_cube, two_eq; ring|]. apply cube_le; try apply Cmod_ge_0. rewrite A_mod3. rewrite <- !Cmod_mult, KB, Cmod_opp. apply larger_minus.
  Qed.
  Lemma A_mod_Q : (Cmod Q <= Cmod A * Cmod A)%R.
  Proof.
    destruct (Req_EM_T (Cmod A) 0) as [E|N].
    - destruct (A_zero (Cmod_eq_0 _ E)) as (-> & _ & _). rewrite Cmod_0. pose proof (Cmod_ge_0 A). nra.
    - assert (A <> 0) as H by (intros F; rewrite F, Cmod_0 in N; contradiction). assert (A * (Q / A) = Q) as E by (field; exact H). destruct (partner (Q / A) H E) as [_ L]. rewrite <- E at 1. rewrite Cmod_mult. pose proof (Cmod_ge_0 A). nra.
  Qed.
  Lemma A_mod_R : (Cmod R <= Cmod A * Cmod A * Cmod A)%R.
  Proof. rewrite A_mod3. apply larger_first. Qed.
  Lemma B_exact eps : (0 < eps)%R -> (Q = 0 /\ R = 0) \/ (eps < Cmod Q)%R \/ (eps * sqrt eps < Cmod R)%R ->
    A * cubic_B eps Q R = Q /\ A * A * A + cubic_B eps Q R * cubic_B eps Q R * cubic_B eps Q R = - (RtoC 2 * R).
  Proof.
    intros He H. assert (0 < sqrt eps)%R as Hs by (apply sqrt_lt_R0; exact He). assert (sqrt eps * sqrt eps = eps)%R as Hss by (apply sqrt_sqrt; lra).
    unfold cubic_B. fold A. destruct (is_significant eps A) eqn:E.
    - apply significant_spec in E. assert (A <> 0) as N by (intros F; rewrite F, Cmod_0 in E; lra). assert (A * (Q / A) = Q) as F by (field; exact N). split; [exact F|]. apply partner; assumption.
    - apply insignificant_spec in E. pose proof A_mod_Q as MQ. pose proof A_mod_R as MR. pose proof (Cmod_ge_0 A) as PA. destruct H as [[HQ HR]|[H|H]]; [|nra|exfalso].
      + assert (S = 0) as S0. { assert (S * S = 0) as F by (rewrite S_sq, HQ, HR; ring). apply C_integral in F as [F|F]; exact F. }
        fold S. assert (A * A * A = 0) as A3 by (rewrite A_cube, HR, S0; ring). assert (A = 0) as -> by (apply C_integral in A3 as [A3|A3]; [apply C_integral in A3 as [A3|A3]|]; exact A3).
        rewrite S0, HR, HQ. set (b := ccbrt _). assert (b * b * b = 0) as Hb by (unfold b; rewrite ccbrt_cube; ring). split; [ring|]. transitivity (- (b * b * b)); [ring|]. rewrite Hb. ring.
      + assert (Cmod A * Cmod A <= eps)%R by nra. assert (Cmod A * Cmod A * Cmod A <= eps * sqrt eps)%R by nra. lra.
  Qed.
  Lemma B_near eps : (0 < eps)%R -> exists B, A * B = Q /\ A * A * A + B * B * B = - (RtoC 2 * R) /\ (Cmod (cubic_B eps Q R - B)%C <= 2 * sqrt eps)%R.
  Proof.
    intros He. assert (0 < sqrt eps)%R as Hs by (apply sqrt_lt_R0; exact He). destruct (is_significant eps A) eqn:E.
    - pose proof E as E'. apply significant_spec in E'. assert (A <> 0) as N by (intros F; rewrite F, Cmod_0 in E'; lra). assert (A * (Q / A) = Q) as F by (field; exact N).
      exists (Q / A). split; [exact F|]. split; [apply partner; assumption|]. unfold cubic_B. fold A. rewrite E. replace (Q / A - Q / A) with (RtoC 0) by ring. rewrite Cmod_0. lra.
    - pose proof E as E'. apply insignificant_spec in E'. destruct (Req_EM_T (Cmod A) 0) as [Z|N].
      + destruct (A_zero (Cmod_eq_0 _ Z)) as (Q0 & R0 & _). exists (cubic_B eps Q R). destruct (B_exact eps He (or_introl (conj Q0 R0))) as [F1 F2]. split; [exact F1|]. split; [exact F2|].
        replace (cubic_B eps Q R - cubic_B eps Q R) with (RtoC 0) by ring. rewrite Cmod_0. lra.
      + assert (A <> 0) as H by (intros F; rewrite F, Cmod_0 in N; contradiction). assert (A * (Q / A) = Q) as F by (field; exact H). destruct (partner (Q / A) H F) as [P1 P2].
        exists (Q / A). split; [exact F|]. split; [exact P1|]. unfold cubic_B. fold A. rewrite E. fold S.
        eapply Rle_trans; [apply Cmod_triangle|]. rewrite !Cmod_opp. assert (Cmod (ccbrt (R - sign0 (fst (Cconj R * S)) * S))%C <= Cmod A)%R; [|lra].
        apply cube_le; try apply Cmod_ge_0. rewrite ccbrt_mod, A_mod3. apply larger_zero.
  Qed.
End Cardano.

Lemma cardano_expand (A B a b c c3 Q R : C) : A * B = Q -> A * A * A + B * B * B = - (RtoC 2 * R) -> Q = cubic_Q a b -> R = cubic_R a b c ->
  poly_of c3 (map (fun t : C => A * t + B * Cconj t - a) [cis (- (2 * PI / 3)); RtoC 1; cis (2 * PI / 3)]) = [c3 * c; c3 * b; RtoC 3 * c3 * a; c3].
Proof.
  intros HQ HR EQ ER. rewrite cis_neg. fold third. cbn [map poly_of pm]. rewrite Cconj_conj, third_conj. replace (Cconj 1) with (RtoC 1) by (symmetry; apply Cconj_R).
  assert (RtoC 2 <> 0) as H2 by (apply RtoC_neq; lra). assert (RtoC 3 <> 0) as H3 by (apply RtoC_neq; lra).
  set (t := third). pose proof third_sq as T. fold t in T. set (x := A * (- (1) - t) + B * t). set (z := A * t + B * (- (1) - t)).
  assert (x + z = - (A + B)) as XZ by (unfold x, z; ring).
  assert (x * z = A * A + B * B - A * B) as XZ2. { transitivity (A * A + B * B - A * B - (A - B) * (A - B) * (t * t + t + 1)); [unfold x, z; ring|rewrite T; ring]. }
  assert (b = RtoC 3 * (a * a - A * B)) as Eb by (rewrite HQ, EQ; unfold cubic_Q; rewrite three_eq; field; cnz).
  assert (c = - (A * A * A + B * B * B) + a * b - RtoC 2 * (a * a * a)) as Ec. { rewrite HR, ER. unfold cubic_R. rewrite two_eq. field. cnz. }
  rewrite Ec, Eb, three_eq, two_eq. replace (A * 1 + B * 1) with (A + B) by ring.
  assert (forall u v w u' v' w' : C, u = u' -> v = v' -> w = w' -> [u; v; w; c3] = [u'; v'; w'; c3]) as K by (intros; subst; reflexivity). apply K; clear K.
  - transitivity (- c3 * (x * z * (A + B) - a * (x * z + (x + z) * (A + B)) + a * a * (x + z + (A + B)) - a * a * a)); [ring|]. rewrite XZ, XZ2. ring.
  - transitivity (c3 * (x * z + (x + z) * (A + B) - (1 + 1) * a * (x + z + (A + B)) + (1 + 1 + 1) * (a * a))); [ring|]. rewrite XZ, XZ2. ring.
  - transitivity (- c3 * (x + z + (A + B) - (1 + 1 + 1) * a)); [ring|]. rewrite XZ. ring.
Qed.
Lemma cubic_scaled_roots eps (c0 c1 c2 c3 : C) : (0 < eps)%R -> c3 <> 0 -> scaled3 eps c0 c1 c2 c3 -> poly_of c3 (cubic eps c0 c1 c2 c3) = [c0; c1; c2; c3].
Proof.
  intros He H3 Sc. unfold cubic. set (a := c2 / c3 / RtoC 3). set (b := c1 / c3). set (c := c0 / c3).
  assert (cubic_Q a b = centred_q c1 c2 c3) as EQ by reflexivity.
  assert (cubic_R a b c = centred_r c0 c1 c2 c3) as ER. { unfold cubic_R, centred_r. fold a b c. rewrite two_eq. field. cnz. }
  destruct (B_exact (cubic_Q a b) (cubic_R a b c) eps He) as [F1 F2]; [rewrite EQ, ER; exact Sc|].
  rewrite (cardano_expand _ _ a b c c3 _ _ F1 F2 eq_refl eq_refl). unfold a, b, c. f_equal; [field; exact H3|]. f_equal; [field; exact H3|]. f_equal. field. split; [exact H3|]. apply RtoC_neq. lra.
Qed.
Lemma cubic_near_roots eps (c0 c1 c2 c3 : C) : (0 < eps)%R -> c3 <> 0 -> exists Y, poly_of c3 Y = [c0; c1; c2; c3] /\ Forall2 (fun x y => (Cmod (x - y)%C <= 2 * sqrt eps)%R) (cubic eps c0 c1 c2 c3) Y.
Proof.
  intros He H3. unfold cubic. set (a := c2 / c3 / RtoC 3). set (b := c1 / c3). set (c := c0 / c3).
  destruct (B_near (cubic_Q a b) (cubic_R a b c) eps He) as (B & F1 & F2 & L). set (A := cubic_A (cubic_Q a b) (cubic_R a b c)) in *.
  exists (map (fun t : C => A * t + B * Cconj t - a) [cis (- (2 * PI / 3)); RtoC 1; cis (2 * PI / 3)]). split.
  - rewrite (cardano_expand _ _ a b c c3 _ _ F1 F2 eq_refl eq_refl). unfold a, b, c. f_equal; [field; exact H3|]. f_equal; [field; exact H3|]. f_equal. field. split; [exact H3|]. apply RtoC_neq. lra.
  - assert (forall t, Cmod t = 1%R -> (Cmod ((A * t + cubic_B eps (cubic_Q a b) (cubic_R a b c) * Cconj t - a) - (A * t + B * Cconj t - a))%C <= 2 * sqrt eps)%R) as K.
    { intros t Ht. replace (_ - _) with ((cubic_B eps (cubic_Q a b) (cubic_R a b c) - B) * Cconj t) by ring. rewrite Cmod_mult, Cmod_conj, Ht, Rmult_1_r. exact L. }
    cbn [map]. repeat apply Forall2_cons; try apply Forall2_nil; apply K; try apply cis_mod. apply Cmod_1.
Qed.
