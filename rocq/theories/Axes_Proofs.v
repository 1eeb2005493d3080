From Coq Require Import Reals Lra Lia String List Bool Arith ZArith.
Require Import Verif.Base Verif.Round125_Model Verif.Round125_Proofs Verif.Axes_Model Verif.Axes_Spec.
Import ListNotations.
Local Open Scope R_scope.

Lemma round_positive x : 0 < x -> 0 < round125 x /\ round_number (round125 x).
Proof.
  intros H. destruct (round125_form x) as (d & n & Hd & E); [lra|]. destruct (Rlt_dec x 0); [lra|].
  assert (0 < powerRZ 10 n) by (apply powerRZ_lt; lra). split.
  - rewrite E. apply Rmult_lt_0_compat; [|assumption]. destruct Hd as [->|[->| ->]]; lra.
  - exists d, n. split; [exact Hd|]. rewrite E. ring.
Qed.
Lemma titled a t c : exists l, titles t c l /\
  match t with Some t => if (0 <? String.length t)%nat then add_artist (without_ticks a) (AnchoredText t c) else without_ticks a | None => without_ticks a end =
  {| xticks := []; yticks := []; framed := false; artists := artists a ++ l |}.
Proof.
  destruct t as [[|h t]|].
  - exists []. split; [reflexivity|]. unfold without_ticks. cbn. rewrite app_nil_r. reflexivity.
  - exists [AnchoredText (String h t) c]. split; reflexivity.
  - exists []. split; [reflexivity|]. unfold without_ticks. rewrite app_nil_r. reflexivity.
Qed.
Lemma bar_added a t x u b : 0 < x -> exists a' l bar len,
  format_image_axes a t (ScaleNumber x) u b = Ok a' /\ xticks a' = [] /\ yticks a' = [] /\ framed a' = false /\
  artists a' = (artists a ++ l ++ [bar])%list /\ titles t (if b then black else white) l /\ true_bar bar len u (if b then black else white) /\
  round_number len /\ (/ 10 ^ 10 <= x -> x <= 8 / 5 * len /\ len <= 8 / 5 * x).
Proof.
  intros Hx. destruct (titled a t (foreground b)) as (l & Ht & E). destruct (round_positive x Hx) as (Hp & Hr). unfold format_image_axes. cbv zeta. rewrite E.
  unfold positive. destruct (Rlt_dec 0 x); [|lra]. cbn [bind].
  eexists. exists l, (AnchoredSizeBar (round125 x) (round125 x / 5) (round125 x) u (foreground b)), (round125 x).
  refine (conj eq_refl (conj eq_refl (conj eq_refl (conj eq_refl (conj _ (conj Ht (conj _ (conj Hr _)))))))).
  - cbn [add_artist artists]. rewrite app_assoc. reflexivity.
  - exists (round125 x / 5). split; [lra|reflexivity].
  - intros H. pose proof (round125_near x) as HN. rewrite (Rabs_pos_eq x), (Rabs_pos_eq (round125 x)) in HN by lra. apply HN. exact H.
Qed.
Lemma no_bar a t x u b : x <= 0 -> exists a' l, format_image_axes a t (ScaleNumber x) u b = Ok a' /\ xticks a' = [] /\ yticks a' = [] /\ framed a' = false /\
  artists a' = (artists a ++ l)%list /\ titles t (if b then black else white) l.
Proof.
  intros Hx. destruct (titled a t (foreground b)) as (l & Ht & E). unfold format_image_axes. cbv zeta. rewrite E. unfold positive. destruct (Rlt_dec 0 x); [lra|]. cbn [bind].
  eexists. exists l. exact (conj eq_refl (conj eq_refl (conj eq_refl (conj eq_refl (conj eq_refl Ht))))).
Qed.
Lemma unit_kept a b : exists a' size height c, format_image_axes a None (ScaleNumber (/ 1000)) "m"%string b = Ok a' /\
  artists a' = (artists a ++ [AnchoredSizeBar size height size "m"%string c])%list /\ size < / 100.
Proof.
  unfold format_image_axes. cbv zeta. unfold positive. destruct (Rlt_dec 0 (/ 1000)); [|lra]. cbn [bind]. eexists. exists (round125 (/ 1000)). eexists. eexists. split; [reflexivity|]. split; [reflexivity|].
  destruct (round_positive (/ 1000)) as (Hp & _); [lra|].
  pose proof (round125_near (/ 1000)) as HN. rewrite (Rabs_pos_eq (/ 1000)), (Rabs_pos_eq (round125 (/ 1000))) in HN by lra. assert (/ 10 ^ 10 <= / 1000) as H by (apply Rinv_le_contravar; lra).
  destruct (HN H). lra.
Qed.
Lemma array_refused a t x y l u b : format_image_axes a t (ScaleArray (x :: y :: l)) u b = Err ValueError.
Proof. reflexivity. Qed.
Lemma tiny_bar a x u b : 0 < x < / 10 ^ 10 -> exists a' height, format_image_axes a None (ScaleNumber x) u b = Ok a' /\
  artists a' = (artists a ++ [AnchoredSizeBar (/ 10 ^ 10) height (/ 10 ^ 10) u (if b then black else white)])%list.
Proof.
  intros Hx. unfold format_image_axes. cbv zeta. unfold positive. destruct (Rlt_dec 0 x); [|lra]. cbn [bind]. rewrite (round125_tiny x Hx). eexists. eexists. split; reflexivity.
Qed.
Lemma twice_added a t s u b a1 a2 : format_image_axes a t s u b = Ok a1 -> format_image_axes a1 t s u b = Ok a2 ->
  exists l, artists a1 = (artists a ++ l)%list /\ artists a2 = (artists a ++ l ++ l)%list.
Proof.
  unfold format_image_axes. cbv zeta. destruct (titled a t (foreground b)) as (l & Ht & E). destruct (titled a1 t (foreground b)) as (l1 & Ht1 & E1). rewrite E, E1.
  assert (l1 = l) as -> by (destruct t as [[|]|]; cbn in Ht, Ht1; congruence).
  destruct (positive s) as [[x|]|]; cbn [bind]; intros H1 H2; try discriminate; inversion H1; subst a1; inversion H2; subst a2; cbn [add_artist artists].
  - exists (l ++ [AnchoredSizeBar (round125 x) (round125 x / 5) (round125 x) u (foreground b)])%list. rewrite <- !app_assoc. split; reflexivity.
  - exists l. rewrite <- !app_assoc. split; reflexivity.
Qed.
