(** Finite sums of real and complex numbers over ranges and over the index lists of an n-dimensional array. *)
From Coq Require Import Reals Lra Lia List Arith Bool.
From Coq Require Import FunctionalExtensionality.
Require Import Verif.Cplx.
Import ListNotations.
Local Open Scope R_scope.
Local Open Scope C_scope.

(** ** Complex conjugation *)
Lemma Cconj_plus (a b : C) : Cconj (a + b) = Cconj a + Cconj b.
Proof. apply C_eq; cbn; ring. Qed.
Lemma Cconj_mult (a b : C) : Cconj (a * b) = Cconj a * Cconj b.
Proof. apply C_eq; cbn; ring. Qed.
Lemma Cconj_opp (a : C) : Cconj (- a) = - Cconj a.
Proof. apply C_eq; cbn; ring. Qed.
Lemma Cconj_minus (a b : C) : Cconj (a - b) = Cconj a - Cconj b.
Proof. apply C_eq; cbn; ring. Qed.
Lemma Cconj_conj (a : C) : Cconj (Cconj a) = a.
Proof. apply C_eq; cbn; ring. Qed.
Lemma Cconj_R (x : R) : Cconj (RtoC x) = RtoC x.
Proof. apply C_eq; cbn; ring. Qed.
Lemma Cconj_Ci : Cconj Ci = - Ci.
Proof. apply C_eq; cbn; ring. Qed.
Lemma Cmod_conj (a : C) : Cmod (Cconj a) = Cmod a.
Proof. unfold Cmod, Cconj. cbn. f_equal. ring. Qed.
Lemma Cmult_conj (a : C) : Cconj a * a = RtoC (Cmod a * Cmod a).
Proof. rewrite Cmod_sq. apply C_eq; cbn; ring. Qed.
Lemma Ci_sq : Ci * Ci = - (1).
Proof. apply C_eq; cbn; ring. Qed.
Lemma Cconj_inv (a : C) : Cconj (/ a) = / Cconj a.
Proof.
  apply C_eq; unfold Cinv, Cconj; cbn [fst snd].
  - f_equal. ring.
  - replace (fst a ^ 2 + (- snd a) ^ 2)%R with (fst a ^ 2 + snd a ^ 2)%R by ring. unfold Rdiv. ring.
Qed.
Lemma Cconj_div (a b : C) : Cconj (a / b) = Cconj a / Cconj b.
Proof. unfold Cdiv. rewrite Cconj_mult, Cconj_inv. reflexivity. Qed.

(** ** Sums over a range *)
Fixpoint csum (n : nat) (f : nat -> C) : C := match n with O => 0 | S m => csum m f + f m end.
Fixpoint rsum (n : nat) (f : nat -> R) : R := match n with O => 0%R | S m => (rsum m f + f m)%R end.

Lemma csum_ext n f g : (forall i, (i < n)%nat -> f i = g i) -> csum n f = csum n g.
Proof. induction n; intros H; cbn; [reflexivity|]. rewrite IHn, H by (intros; try apply H; lia). reflexivity. Qed.
Lemma csum_plus n f g : csum n (fun i => f i + g i) = csum n f + csum n g.
Proof. induction n; cbn; [ring|]. rewrite IHn. ring. Qed.
Lemma csum_scal n a f : csum n (fun i => a * f i) = a * csum n f.
Proof. induction n; cbn; [ring|]. rewrite IHn. ring. Qed.
Lemma csum_scal_r n a f : csum n (fun i => f i * a) = csum n f * a.
Proof. induction n; cbn; [ring|]. rewrite IHn. ring. Qed.
Lemma csum_zero n : csum n (fun _ => 0) = 0.
Proof. induction n; cbn; [reflexivity|]. rewrite IHn. ring. Qed.
Lemma csum_const n (a : C) : csum n (fun _ => a) = RtoC (INR n) * a.
Proof. induction n; [cbn; ring|]. rewrite S_INR, RtoC_plus. cbn [csum]. rewrite IHn. ring. Qed.
Lemma csum_swap n m (f : nat -> nat -> C) : csum n (fun i => csum m (fun j => f i j)) = csum m (fun j => csum n (fun i => f i j)).
Proof.
  induction n; cbn; [rewrite csum_zero; reflexivity|]. rewrite IHn, <- csum_plus. reflexivity.
Qed.
Lemma csum_conj n f : Cconj (csum n f) = csum n (fun i => Cconj (f i)).
Proof. induction n; cbn [csum]; [apply Cconj_R|]. rewrite Cconj_plus, IHn. reflexivity. Qed.
Lemma csum_delta n k f : (k < n)%nat -> csum n (fun i => if Nat.eqb i k then f i else 0) = f k.
Proof.
  induction n; intros H; [lia|]. cbn [csum]. destruct (Nat.eqb_spec n k) as [->|Hn].
  - rewrite (csum_ext k _ (fun _ => 0)); [rewrite csum_zero; ring|]. intros i Hi. destruct (Nat.eqb_spec i k); [lia|reflexivity].
  - rewrite IHn by lia. ring.
Qed.

Lemma rsum_ext n f g : (forall i, (i < n)%nat -> f i = g i) -> rsum n f = rsum n g.
Proof. induction n; intros H; cbn; [reflexivity|]. rewrite IHn, H by (intros; try apply H; lia). reflexivity. Qed.
Lemma rsum_plus n f g : rsum n (fun i => f i + g i)%R = (rsum n f + rsum n g)%R.
Proof. induction n; cbn; [ring|]. rewrite IHn. ring. Qed.
Lemma rsum_scal n a f : rsum n (fun i => a * f i)%R = (a * rsum n f)%R.
Proof. induction n; cbn; [ring|]. rewrite IHn. ring. Qed.
Lemma rsum_le n f g : (forall i, (i < n)%nat -> (f i <= g i)%R) -> (rsum n f <= rsum n g)%R.
Proof.
  induction n; intros H; cbn; [lra|]. pose proof (H n (Nat.lt_succ_diag_r n)). pose proof (IHn (fun i Hi => H i (Nat.lt_lt_succ_r _ _ Hi))). lra.
Qed.
Lemma rsum_nonneg n f : (forall i, (i < n)%nat -> (0 <= f i)%R) -> (0 <= rsum n f)%R.
Proof.
  intros H. apply (Rle_trans _ (rsum n (fun _ => 0%R))); [|apply rsum_le; assumption].
  clear H. induction n; cbn; lra.
Qed.
Lemma rsum_nonneg_zero n f : (forall i, (i < n)%nat -> (0 <= f i)%R) -> rsum n f = 0%R -> forall i, (i < n)%nat -> f i = 0%R.
Proof.
  induction n; intros Hf H0 i Hi; [lia|]. cbn [rsum] in H0.
  assert (0 <= rsum n f)%R by (apply rsum_nonneg; intros; apply Hf; lia).
  assert (0 <= f n)%R by (apply Hf; lia).
  destruct (Nat.eq_dec i n) as [->|Hne]; [lra|]. apply IHn; [intros; apply Hf; lia|lra|lia].
Qed.
Lemma csum_RtoC n f : csum n (fun i => RtoC (f i)) = RtoC (rsum n f).
Proof. induction n; cbn; [reflexivity|]. rewrite IHn, RtoC_plus. reflexivity. Qed.

(** ** Sums over all index lists of a shape *)
(** The index lists of an array of the given shape. *)
Definition inside (s p : list nat) : Prop := Forall2 (fun n i => (i < n)%nat) s p.

Fixpoint sum_over (s : list nat) (F : list nat -> C) : C :=
  match s with
  | [] => F []
  | n :: s' => csum n (fun i => sum_over s' (fun p => F (i :: p)))
  end.
Fixpoint rsum_over (s : list nat) (F : list nat -> R) : R :=
  match s with
  | [] => F []
  | n :: s' => rsum n (fun i => rsum_over s' (fun p => F (i :: p)))
  end.

Lemma sum_over_ext s F G : (forall p, inside s p -> F p = G p) -> sum_over s F = sum_over s G.
Proof.
  revert F G. induction s as [|n s IH]; intros F G H; cbn; [apply H; constructor|].
  apply csum_ext. intros i Hi. apply IH. intros p Hp. apply H. constructor; assumption.
Qed.
Lemma sum_over_plus s F G : sum_over s (fun p => F p + G p) = sum_over s F + sum_over s G.
Proof.
  revert F G. induction s as [|n s IH]; intros F G; cbn; [reflexivity|].
  rewrite <- csum_plus. apply csum_ext. intros i _. apply IH.
Qed.
Lemma sum_over_scal s a F : sum_over s (fun p => a * F p) = a * sum_over s F.
Proof.
  revert F. induction s as [|n s IH]; intros F; cbn; [reflexivity|].
  rewrite <- csum_scal. apply csum_ext. intros i _. apply IH.
Qed.
Lemma sum_over_scal_r s a F : sum_over s (fun p => F p * a) = sum_over s F * a.
Proof.
  rewrite Cmult_comm, <- sum_over_scal. apply sum_over_ext. intros; ring.
Qed.
Lemma sum_over_minus s F G : sum_over s (fun p => F p - G p) = sum_over s F - sum_over s G.
Proof.
  replace (sum_over s F - sum_over s G) with (sum_over s F + (- (1)) * sum_over s G) by ring.
  rewrite <- sum_over_scal, <- sum_over_plus. apply sum_over_ext. intros; ring.
Qed.
Lemma sum_over_zero s : sum_over s (fun _ => 0) = 0.
Proof. induction s as [|n s IH]; cbn; [reflexivity|]. rewrite IH. apply csum_zero. Qed.
Lemma sum_over_conj s F : Cconj (sum_over s F) = sum_over s (fun p => Cconj (F p)).
Proof.
  revert F. induction s as [|n s IH]; intros F; cbn; [reflexivity|].
  rewrite csum_conj. apply csum_ext. intros i _. apply IH.
Qed.
Lemma sum_over_csum s n (F : list nat -> nat -> C) :
  sum_over s (fun p => csum n (fun i => F p i)) = csum n (fun i => sum_over s (fun p => F p i)).
Proof.
  revert F. induction s as [|m s IH]; intros F; cbn; [reflexivity|].
  rewrite csum_swap. apply csum_ext. intros i _. apply IH.
Qed.
Lemma sum_over_swap s t (F : list nat -> list nat -> C) :
  sum_over s (fun p => sum_over t (fun q => F p q)) = sum_over t (fun q => sum_over s (fun p => F p q)).
Proof.
  revert F. induction s as [|n s IH]; intros F; cbn; [reflexivity|].
  rewrite sum_over_csum. apply csum_ext. intros i _. apply IH.
Qed.
Lemma sum_over_const s (a : C) : sum_over s (fun _ => a) = RtoC (INR (fold_right Nat.mul 1%nat s)) * a.
Proof.
  induction s as [|n s IH]; cbn [sum_over fold_right]; [cbn; ring|].
  rewrite IH, csum_const, mult_INR, RtoC_mult. ring.
Qed.

Definition idx_eqb (p q : list nat) : bool := if list_eq_dec Nat.eq_dec p q then true else false.
Lemma idx_eqb_spec p q : reflect (p = q) (idx_eqb p q).
Proof. unfold idx_eqb. destruct (list_eq_dec Nat.eq_dec p q); constructor; assumption. Qed.

Lemma idx_eqb_cons i p j q : idx_eqb (i :: p) (j :: q) = (Nat.eqb i j && idx_eqb p q)%bool.
Proof.
  destruct (idx_eqb_spec (i :: p) (j :: q)) as [H|H]; destruct (Nat.eqb_spec i j), (idx_eqb_spec p q); try reflexivity; congruence.
Qed.

Lemma sum_over_delta s q F : inside s q -> sum_over s (fun p => if idx_eqb p q then F p else 0) = F q.
Proof.
  intros H. revert F. induction H as [|n j s q Hj Hq IH]; intros F; cbn [sum_over]; [reflexivity|].
  rewrite (csum_ext _ _ (fun i => if Nat.eqb i j then F (i :: q) else 0)).
  - exact (csum_delta _ _ (fun i => F (i :: q)) Hj).
  - intros i _. destruct (Nat.eqb_spec i j) as [->|Hne].
    + rewrite <- (IH (fun p => F (j :: p))). apply sum_over_ext. intros p _. rewrite idx_eqb_cons, Nat.eqb_refl. reflexivity.
    + transitivity (sum_over s (fun _ => 0)); [|apply sum_over_zero]. apply sum_over_ext. intros p _. rewrite idx_eqb_cons.
      destruct (Nat.eqb_spec i j); [contradiction|reflexivity].
Qed.

Lemma rsum_over_ext s F G : (forall p, inside s p -> F p = G p) -> rsum_over s F = rsum_over s G.
Proof.
  revert F G. induction s as [|n s IH]; intros F G H; cbn; [apply H; constructor|].
  apply rsum_ext. intros i Hi. apply IH. intros p Hp. apply H. constructor; assumption.
Qed.
Lemma rsum_over_plus s F G : rsum_over s (fun p => F p + G p)%R = (rsum_over s F + rsum_over s G)%R.
Proof.
  revert F G. induction s as [|n s IH]; intros F G; cbn; [reflexivity|].
  rewrite <- rsum_plus. apply rsum_ext. intros i _. apply IH.
Qed.
Lemma rsum_over_scal s a F : rsum_over s (fun p => a * F p)%R = (a * rsum_over s F)%R.
Proof.
  revert F. induction s as [|n s IH]; intros F; cbn; [reflexivity|].
  rewrite <- rsum_scal. apply rsum_ext. intros i _. apply IH.
Qed.
Lemma rsum_over_le s F G : (forall p, inside s p -> (F p <= G p)%R) -> (rsum_over s F <= rsum_over s G)%R.
Proof.
  revert F G. induction s as [|n s IH]; intros F G H; cbn; [apply H; constructor|].
  apply rsum_le. intros i Hi. apply IH. intros p Hp. apply H. constructor; assumption.
Qed.
Lemma rsum_over_nonneg s F : (forall p, inside s p -> (0 <= F p)%R) -> (0 <= rsum_over s F)%R.
Proof.
  revert F. induction s as [|n s IH]; intros F H; cbn; [apply H; constructor|].
  apply rsum_nonneg. intros i Hi. apply IH. intros p Hp. apply H. constructor; assumption.
Qed.
Lemma rsum_over_nonneg_zero s F : (forall p, inside s p -> (0 <= F p)%R) -> rsum_over s F = 0%R -> forall p, inside s p -> F p = 0%R.
Proof.
  revert F. induction s as [|n s IH]; intros F Hf H0 p Hp; inversion Hp; subst; cbn in H0; [exact H0|].
  apply (IH (fun p => F (y :: p))); [intros q Hq; apply Hf; constructor; assumption| |assumption].
  apply (rsum_nonneg_zero n (fun i => rsum_over s (fun p => F (i :: p)))); [|exact H0|assumption].
  intros i Hi. apply rsum_over_nonneg. intros q Hq. apply Hf. constructor; assumption.
Qed.
Lemma sum_over_RtoC s F : sum_over s (fun p => RtoC (F p)) = RtoC (rsum_over s F).
Proof.
  revert F. induction s as [|n s IH]; intros F; cbn; [reflexivity|].
  rewrite <- csum_RtoC. apply csum_ext. intros i _. apply IH.
Qed.
