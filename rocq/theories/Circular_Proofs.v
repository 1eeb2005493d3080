(** Homogeneous magnetic and chiral media: the spectrum of the field. *)
From Coq Require Import Reals Lra Lia List Arith.
Require Import Verif.Base Verif.Cplx Verif.CSum Verif.Field Verif.Fourier_Model Verif.Fourier_Spec Verif.Fourier_Proofs Verif.Vec_Model Verif.Vec_Spec Verif.Vec_Proofs.
Require Import Verif.Solver_Model Verif.Solver_Spec Verif.Solver_Proofs Verif.Choice_Model Verif.Derived_Model Verif.Derived_Spec Verif.Magnetic_Spec.
Require Import Verif.Symmetry_Spec Verif.Maxwell_Spec Verif.Maxwell_Proofs Verif.Circular_Spec.
Import ListNotations.
Local Open Scope R_scope.
Local Open Scope C_scope.

Lemma curl_transformed g E c q : (rndim g <= 3)%nat -> (c < 3)%nat -> inside (rshape g) q ->
  ft (rshape g) (curl g 3 E c) q = Ci * cross3 (fun i => RtoC (wavevector g q i)) (fun i => ft (rshape g) (E i) q) c.
Proof. intros Hn Hc Hq. unfold curl, convolve, vift. rewrite (ft_ift (rshape g) _ q Hq), curl_ft_cross by assumption. reflexivity. Qed.

(** No wave is a solution without source. *)
Lemma response_defined k0 s (e x z m : C) loss k : (0 < k0)%R -> (0 < loss)%R -> m <> 0 -> inside s (map (fun _ => 0%nat) s) -> absorbs_both s (tuniform e) (tuniform x) (tuniform z) (tuniform m) loss ->
  (RtoC k + Ci * RtoC k0 * x) * (RtoC k - Ci * RtoC k0 * z) - RtoC (k0 * k0) * e * m <> 0.
Proof.
  intros K L M I A D. assert (Hk' : RtoC k0 <> 0) by (apply RtoC_neq; lra).
  assert (Hi : Ci <> 0) by (intros Q; apply (f_equal snd) in Q; cbn in Q; lra).
  set (h := (RtoC k / (Ci * RtoC k0) - z) / m). pose proof (A _ (fun i => if Nat.eqb i 0 then RtoC 1 else RtoC 0) (fun i => if Nat.eqb i 0 then h else RtoC 0) I) as Q.
  unfold length2, at_point in Q. cbn [rsum csum tapply tuniform Nat.eqb] in Q. rewrite !Cmod_0, Cmod_1 in Q.
  assert (B1 : z * RtoC 1 + m * h = - (Ci * RtoC (k / k0))).
  { unfold h, Rdiv. rewrite RtoC_mult, RtoC_inv by lra. transitivity (RtoC k / (Ci * RtoC k0)); [field; repeat split; assumption|].
    transitivity (- (Ci * Ci) * RtoC k / (Ci * RtoC k0)); [rewrite Ci_sq; field; split; assumption|]. field. split; assumption. }
  assert (B2 : e * RtoC 1 + x * h = Ci * RtoC (k / k0) * h).
  { assert (T : (RtoC k + Ci * RtoC k0 * x) * (m * h) + Ci * RtoC k0 * e * m = 0).
    { assert (E : m * h = (RtoC k - Ci * RtoC k0 * z) / (Ci * RtoC k0)) by (unfold h; field; repeat split; assumption). rewrite E.
      transitivity (((RtoC k + Ci * RtoC k0 * x) * (RtoC k - Ci * RtoC k0 * z) - RtoC (k0 * k0) * e * m) / (Ci * RtoC k0)); [|rewrite D; field; split; assumption].
      rewrite RtoC_mult. transitivity (((RtoC k + Ci * RtoC k0 * x) * (RtoC k - Ci * RtoC k0 * z) + Ci * Ci * RtoC k0 * RtoC k0 * e * m) / (Ci * RtoC k0)); [field; split; assumption|rewrite Ci_sq; f_equal; ring]. }
    transitivity (e + x * h - ((RtoC k + Ci * RtoC k0 * x) * (m * h) + Ci * RtoC k0 * e * m) / (Ci * RtoC k0 * m)); [rewrite T; field; repeat split; assumption|].
    transitivity (- (RtoC k / (Ci * RtoC k0)) * h); [field; repeat split; assumption|]. unfold Rdiv. rewrite RtoC_mult, RtoC_inv by lra.
    transitivity (Ci * Ci * (RtoC k / (Ci * RtoC k0)) * h); [rewrite Ci_sq; ring|field; split; assumption]. }
  rewrite B1, B2 in Q. rewrite !Cconj_R in Q. rewrite Cmod_sq in Q. clear B1 B2. destruct h as [a b]. cbn in Q.
  assert (N : (0 <= loss * (a * a + b * b))%R) by (apply Rmult_le_pos; [lra|nra]). nra.
Qed.

(** A vector is the sum of its part along K and of two circularly polarised ones. *)
Lemma three_parts (K : nat -> R) (E S : nat -> C) (b d m : C) : let v i := RtoC (K i) in let T x c := Ci * cross3 v x c in
  let k := sqrt (K 0%nat * K 0%nat + K 1%nat * K 1%nat + K 2%nat * K 2%nat) in (0 < k)%R ->
  (forall c, (c < 3)%nat -> T (T E) c + b * T E c + d * E c = m * S c) ->
  d <> 0 -> RtoC k * RtoC k + b * RtoC k + d <> 0 -> RtoC k * RtoC k - b * RtoC k + d <> 0 ->
  forall c, (c < 3)%nat -> E c = m / d * along K S c + m / (RtoC k * RtoC k + b * RtoC k + d) * handed k K S c + m / (RtoC k * RtoC k - b * RtoC k + d) * handed (- k) K S c.
Proof.
  intros v T k Hk W N0 N1 N2 c Hc. assert (Q : dot3 v v = RtoC k * RtoC k).
  { rewrite <- RtoC_mult. unfold k. rewrite sqrt_sqrt by nra. unfold dot3, v. rewrite !RtoC_plus, !RtoC_mult. reflexivity. }
  assert (K' : RtoC k <> 0) by (apply RtoC_neq; lra). assert (T2 : RtoC 2 <> 0) by (apply RtoC_neq; lra).
  assert (TT : forall x c, (c < 3)%nat -> T (T x) c = RtoC k * RtoC k * x c - v c * dot3 v x).
  { intros x i Hi. rewrite <- Q. unfold T, cross3, dot3. destruct i as [|[|[|i]]]; [| | |lia];
    match goal with |- ?l = ?r => transitivity (- (Ci * Ci) * r); [ring|rewrite Ci_sq; ring] end. }
  assert (TTT : forall x c, (c < 3)%nat -> T (T (T x)) c = RtoC k * RtoC k * T x c).
  { intros x i Hi. rewrite TT by exact Hi. assert (O : dot3 v (T x) = 0) by (unfold dot3, T, cross3; ring). rewrite O. ring. }
  assert (Text : forall x y, (forall i, (i < 3)%nat -> x i = y i) -> forall i, (i < 3)%nat -> T x i = T y i).
  { intros x y X i Hi. unfold T, cross3. destruct i as [|[|[|i]]]; rewrite !X by lia; reflexivity. }
  assert (Tlin : forall i, (i < 3)%nat -> T (fun j => T (T E) j + b * T E j + d * E j) i = T (T (T E)) i + b * T (T E) i + d * T E i) by (intros i Hi; unfold T, cross3; destruct i as [|[|i]]; ring).
  assert (Tm : forall i, T (fun j => m * S j) i = m * T S i) by (intros i; unfold T, cross3; destruct i as [|[|i]]; ring).
  assert (W1 : forall i, (i < 3)%nat -> RtoC k * RtoC k * T E i + b * T (T E) i + d * T E i = m * T S i).
  { intros i Hi. rewrite <- Tm, <- (Text _ _ W i Hi), Tlin by exact Hi. rewrite TTT by exact Hi. reflexivity. }
  assert (Tlin2 : forall i, (i < 3)%nat -> T (fun j => RtoC k * RtoC k * T E j + b * T (T E) j + d * T E j) i = RtoC k * RtoC k * T (T E) i + b * T (T (T E)) i + d * T (T E) i) by (intros i Hi; unfold T, cross3; destruct i as [|[|i]]; ring).
  assert (Tm2 : forall i, T (fun j => m * T S j) i = m * T (T S) i) by (intros i; unfold T, cross3; destruct i as [|[|i]]; ring).
  assert (W2 : forall i, (i < 3)%nat -> RtoC k * RtoC k * T (T E) i + b * (RtoC k * RtoC k * T E i) + d * T (T E) i = m * T (T S) i).
  { intros i Hi. rewrite <- Tm2, <- (Text _ _ W1 i Hi), Tlin2 by exact Hi. rewrite TTT by exact Hi. reflexivity. }
  assert (A : along K S c = S c - T (T S) c / (RtoC k * RtoC k)).
  { unfold along. fold v. rewrite TT by exact Hc. cbv zeta. change (dot3 (fun i => RtoC (K i)) (fun i => RtoC (K i))) with (dot3 v v). change (dot3 (fun i => RtoC (K i)) S) with (dot3 v S). change (RtoC (K c)) with (v c). rewrite Q. field. exact K'. }
  assert (H1 : forall j, j = k \/ j = (- k)%R -> m * handed j K S c = (T (T E) c * (RtoC k * RtoC k + b * RtoC j + d) + RtoC j * T E c * (RtoC k * RtoC k + b * RtoC j + d)) / (RtoC 2 * (RtoC k * RtoC k))).
  { intros j Hj. assert (J : RtoC j * RtoC j = RtoC k * RtoC k) by (rewrite <- !RtoC_mult; f_equal; destruct Hj; subst j; ring). assert (J' : RtoC j <> 0) by (apply RtoC_neq; destruct Hj; lra).
    unfold handed. rewrite A. change (Ci * cross3 (fun i => RtoC (K i)) S c) with (T S c).
    transitivity ((m * T (T S) c + RtoC j * (m * T S c)) / (RtoC 2 * (RtoC k * RtoC k))).
    - transitivity ((m * T (T S) c / (RtoC k * RtoC k) + m * T S c / RtoC j) / RtoC 2); [field; repeat split; assumption|].
      assert (Ij : / RtoC j = RtoC j / (RtoC k * RtoC k)) by (rewrite <- J; field; exact J'). unfold Cdiv at 3. rewrite Ij. field. repeat split; assumption.
    - rewrite <- (W2 c Hc), <- (W1 c Hc). f_equal. rewrite <- J. ring. }
  assert (H0 : m * along K S c = d * (E c - T (T E) c / (RtoC k * RtoC k))).
  { rewrite A. transitivity (m * S c - m * T (T S) c / (RtoC k * RtoC k)); [field; exact K'|]. rewrite <- (W c Hc), <- (W2 c Hc). field. exact K'. }
  transitivity (m * along K S c / d + m * handed k K S c / (RtoC k * RtoC k + b * RtoC k + d) + m * handed (- k) K S c / (RtoC k * RtoC k - b * RtoC k + d)); [|unfold Cdiv; ring].
  rewrite H0, (H1 k (or_introl eq_refl)), (H1 (- k)%R (or_intror eq_refl)), RtoC_opp.
  replace (RtoC k * RtoC k + b * - RtoC k + d) with (RtoC k * RtoC k - b * RtoC k + d) by ring.
  transitivity (E c - T (T E) c / (RtoC k * RtoC k) + (T (T E) c + RtoC k * T E c) / (RtoC 2 * (RtoC k * RtoC k)) + (T (T E) c - RtoC k * T E c) / (RtoC 2 * (RtoC k * RtoC k))).
  - replace (RtoC 2) with (RtoC 1 + RtoC 1) by (rewrite <- RtoC_plus; f_equal; ring). assert (T3 : RtoC 1 + RtoC 1 <> 0) by (rewrite <- RtoC_plus; apply RtoC_neq; lra). field. repeat split; assumption.
  - field. repeat split; assumption.
Qed.
Lemma circular_spectrum eps u g k0 (e x z m : C) settled thick loss J E : physical u -> magnetic_problem eps g k0 (tuniform e) (tuniform x) (tuniform z) (tuniform m) settled loss ->
  let s := rshape g in computes 3 s k0 (construct eps g k0 true (tuniform e) (tuniform x) (tuniform z) (tuniform m) settled thick (driving u k0 J)) E ->
  forall q c, inside s q -> (c < 3)%nat -> let K := wavevector g q in let k := sqrt (K 0%nat * K 0%nat + K 1%nat * K 1%nat + K 2%nat * K 2%nat) in
  let S i := ft s (driving u k0 J i) q in let G := response k0 e x z m in
  ((k = 0)%R -> ft s (E c) q = G 0%R * S c) /\
  ((0 < k)%R -> ft s (E c) q = G 0%R * along K S c + G k * handed k K S c + G (- k)%R * handed (- k) K S c).
Proof.
  intros U P s C q c Hq Hc K k S G. destruct (computed _ u _ _ _ _ _ _ _ _ _ _ _ U P C) as (H & M).
  destruct P as (_ & _ & Hs & Hk & (nu & Hnu & _) & _ & _ & Hl & Ha). assert (Hn : (rndim g <= 3)%nat) by (apply Hs; reflexivity).
  assert (Hi : Ci <> 0) by (intros Q; apply (f_equal snd) in Q; cbn in Q; lra). assert (Hk' : RtoC k0 <> 0) by (apply RtoC_neq; lra).
  assert (I : inside s (map (fun _ => 0%nat) s)). { destruct Hs as ((_ & F & _) & _). fold s in F. clear -F. induction F as [|y l Hy F IH]; cbn; constructor; assumption. }
  assert (Hm : m <> 0).
  { intros Z. destruct (Hnu (fun _ _ => RtoC 1)) as [N _]. specialize (N 0%nat _ (Nat.lt_0_succ 2) I). cbn [tapply tuniform] in N. rewrite Z in N. apply (f_equal fst) in N. cbn in N. lra. }
  pose proof (fun j => response_defined k0 s e x z m loss j Hk Hl Hm I Ha) as D.
  destruct (normal u g k0 _ _ _ _ U Hs E H J M) as [F B]. set (h := scaled_H u H) in *. set (v := fun i => RtoC (K i)). set (T := fun y i => Ci * cross3 v y i).
  set (Eh := fun i => ft s (E i) q). set (hh := fun i => ft s (h i) q).
  assert (F' : forall i, (i < 3)%nat -> T Eh i = Ci * RtoC k0 * (z * Eh i + m * hh i)).
  { intros i Hi'. unfold T, Eh, v, K, s. rewrite <- (curl_transformed g E i q Hn Hi' Hq), (ft_ext (rshape g) _ _ q (fun p Hp => F i p Hi' Hp)). rewrite ft_scal, ft_plus. cbn [tapply tuniform]. rewrite !ft_scal. reflexivity. }
  assert (B' : forall i, (i < 3)%nat -> Ci * RtoC k0 * T hh i = S i + RtoC (k0 * k0) * (e * Eh i + x * hh i)).
  { intros i Hi'. unfold T, hh, v, K, s. rewrite <- (curl_transformed g h i q Hn Hi' Hq), (ft_ext (rshape g) _ _ q (fun p Hp => B i p Hi' Hp)). rewrite ft_minus, !ft_scal, ft_plus. cbn [tapply tuniform]. rewrite !ft_scal.
    unfold S, driving, Eh, s. rewrite ft_scal. unfold impedance. rewrite !RtoC_mult. transitivity (Ci * RtoC k0 * RtoC (c_light u) * RtoC (mu_0 u) * ft (rshape g) (J i) q - Ci * Ci * (RtoC k0 * RtoC k0) * (e * ft (rshape g) (E i) q + x * ft (rshape g) (h i) q)); [ring|]. rewrite Ci_sq. ring. }
  set (b := Ci * RtoC k0 * (x - z)). set (d := RtoC (k0 * k0) * (x * z - e * m)).
  assert (Dq : forall j, (RtoC j + Ci * RtoC k0 * x) * (RtoC j - Ci * RtoC k0 * z) - RtoC (k0 * k0) * e * m = RtoC j * RtoC j + b * RtoC j + d).
  { intros j. unfold b, d. rewrite !RtoC_mult. transitivity (RtoC j * RtoC j + Ci * RtoC k0 * (x - z) * RtoC j - Ci * Ci * (RtoC k0 * RtoC k0) * (x * z) - RtoC k0 * RtoC k0 * e * m); [ring|rewrite Ci_sq; ring]. }
  assert (Gj : forall j, G j = m / (RtoC j * RtoC j + b * RtoC j + d)) by (intros j; unfold G, response; rewrite Dq; reflexivity).
  assert (Text : forall y y', (forall i, (i < 3)%nat -> y i = y' i) -> forall i, (i < 3)%nat -> T y i = T y' i).
  { intros y y' X i Hi'. unfold T, cross3. destruct i as [|[|[|i]]]; rewrite !X by lia; reflexivity. }
  assert (W : forall i, (i < 3)%nat -> T (T Eh) i + b * T Eh i + d * Eh i = m * S i).
  { intros i Hi'. rewrite (Text _ _ F' i Hi'). transitivity (Ci * RtoC k0 * (z * T Eh i + m * T hh i) + b * T Eh i + d * Eh i); [unfold T, cross3; destruct i as [|[|i]]; ring|].
    transitivity (Ci * RtoC k0 * z * T Eh i + m * (Ci * RtoC k0 * T hh i) + b * T Eh i + d * Eh i); [ring|]. rewrite (B' i Hi'), (F' i Hi'). unfold b, d. rewrite RtoC_mult.
    transitivity (m * S i + (RtoC k0 * RtoC k0) * (e * m * Eh i + x * m * hh i) + Ci * Ci * (RtoC k0 * RtoC k0) * x * (z * Eh i + m * hh i) + RtoC k0 * RtoC k0 * (x * z - e * m) * Eh i); [ring|rewrite Ci_sq; ring]. }
  assert (D0 : d <> 0) by (intros Z; apply (D 0%R); rewrite Dq, Z; ring).
  split; intros Z.
  - assert (K0 : forall i, (i < 3)%nat -> K i = 0%R).
    { assert (Y : (K 0%nat * K 0%nat + K 1%nat * K 1%nat + K 2%nat * K 2%nat = 0)%R) by (apply sqrt_eq_0; [nra|exact Z]). intros i Hi'. destruct i as [|[|[|i]]]; [nra|nra|nra|lia]. }
    assert (T0 : forall y i, (i < 3)%nat -> T y i = 0). { intros y i Hi'. unfold T, cross3, v. rewrite !K0 by lia. destruct i as [|[|i]]; ring. }
    rewrite Gj. specialize (W c Hc). rewrite !T0 in W by exact Hc. change (ft s (E c) q) with (Eh c). transitivity (m * S c / d); [rewrite <- W; field; exact D0|]. replace (RtoC 0 * RtoC 0 + b * RtoC 0 + d) with d by ring. field. exact D0.
  - change (ft s (E c) q) with (Eh c). pose proof (three_parts K Eh S b d m Z W D0) as X. cbv zeta in X. fold k in X.
    pose proof (D k) as D1. rewrite Dq in D1. pose proof (D (- k)%R) as D2. rewrite Dq, RtoC_opp in D2. replace (- RtoC k * - RtoC k + b * - RtoC k + d) with (RtoC k * RtoC k - b * RtoC k + d) in D2 by ring.
    rewrite (X D1 D2 c Hc), !Gj, RtoC_opp. replace (RtoC 0 * RtoC 0 + b * RtoC 0 + d) with d by ring. replace (- RtoC k * - RtoC k + b * - RtoC k + d) with (RtoC k * RtoC k - b * RtoC k + d) by ring. reflexivity.
Qed.
