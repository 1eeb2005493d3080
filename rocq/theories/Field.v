(** Scalar and vector fields on a grid, their inner product and l2-norm, and the Cauchy-Schwarz inequality. *)
From Coq Require Import Reals Lra Lia List Arith Bool.
Require Import Verif.Cplx Verif.CSum.
Import ListNotations.
Local Open Scope R_scope.
Local Open Scope C_scope.

(** A scalar field: the value at each index list.  A vector field: the component number first. *)
Definition sfield := list nat -> C.
Definition vfield := nat -> list nat -> C.

(** Inner product and squared norm of scalar fields of shape [s]. *)
Definition ip (s : list nat) (f g : sfield) : C := sum_over s (fun p => Cconj (f p) * g p).
Definition norm2 (s : list nat) (f : sfield) : R := rsum_over s (fun p => (Cmod (f p) * Cmod (f p))%R).

(** The same for fields of [n]-vectors. *)
Definition vip (n : nat) (s : list nat) (f g : vfield) : C := csum n (fun c => ip s (f c) (g c)).
Definition vnorm2 (n : nat) (s : list nat) (f : vfield) : R := rsum n (fun c => norm2 s (f c)).

(** A field of n-vectors, as a scalar field with one more axis. *)
Definition flat (f : vfield) : sfield := fun q => f (hd 0%nat q) (tl q).
Lemma vip_flat n s f g : vip n s f g = ip (n :: s) (flat f) (flat g).
Proof. reflexivity. Qed.
Lemma vnorm2_flat n s f : vnorm2 n s f = norm2 (n :: s) (flat f).
Proof. reflexivity. Qed.

Lemma ip_ext s f g f' g' : (forall p, inside s p -> f p = f' p) -> (forall p, inside s p -> g p = g' p) -> ip s f g = ip s f' g'.
Proof. intros Hf Hg. apply sum_over_ext. intros p Hp. rewrite Hf, Hg by assumption. reflexivity. Qed.
Lemma norm2_ext s f g : (forall p, inside s p -> f p = g p) -> norm2 s f = norm2 s g.
Proof. intros H. apply rsum_over_ext. intros p Hp. rewrite H by assumption. reflexivity. Qed.
Lemma ip_conj s f g : Cconj (ip s f g) = ip s g f.
Proof. unfold ip. rewrite sum_over_conj. apply sum_over_ext. intros p _. rewrite Cconj_mult, Cconj_conj. ring. Qed.
Lemma ip_self s f : ip s f f = RtoC (norm2 s f).
Proof. unfold ip, norm2. rewrite <- sum_over_RtoC. apply sum_over_ext. intros p _. apply Cmult_conj. Qed.
Lemma ip_plus_r s f g h : ip s f (fun p => g p + h p) = ip s f g + ip s f h.
Proof. unfold ip. rewrite <- sum_over_plus. apply sum_over_ext. intros; ring. Qed.
Lemma ip_plus_l s f g h : ip s (fun p => f p + g p) h = ip s f h + ip s g h.
Proof. unfold ip. rewrite <- sum_over_plus. apply sum_over_ext. intros; rewrite Cconj_plus; ring. Qed.
Lemma ip_minus_r s f g h : ip s f (fun p => g p - h p) = ip s f g - ip s f h.
Proof. unfold ip. rewrite <- sum_over_minus. apply sum_over_ext. intros; ring. Qed.
Lemma ip_minus_l s f g h : ip s (fun p => f p - g p) h = ip s f h - ip s g h.
Proof. unfold ip. rewrite <- sum_over_minus. apply sum_over_ext. intros; rewrite Cconj_minus; ring. Qed.
Lemma ip_scal_r s a f g : ip s f (fun p => a * g p) = a * ip s f g.
Proof. unfold ip. rewrite <- sum_over_scal. apply sum_over_ext. intros; ring. Qed.
Lemma ip_scal_l s a f g : ip s (fun p => a * f p) g = Cconj a * ip s f g.
Proof. unfold ip. rewrite <- sum_over_scal. apply sum_over_ext. intros; rewrite Cconj_mult; ring. Qed.

Lemma norm2_nonneg s f : (0 <= norm2 s f)%R.
Proof. apply rsum_over_nonneg. intros p _. pose proof (Cmod_ge_0 (f p)). nra. Qed.
Lemma norm2_zero s f : norm2 s f = 0%R -> forall p, inside s p -> f p = 0.
Proof.
  intros H p Hp. apply Cmod_eq_0.
  assert (Cmod (f p) * Cmod (f p) = 0)%R as H0.
  { apply (rsum_over_nonneg_zero s (fun p => (Cmod (f p) * Cmod (f p))%R)); [|exact H|exact Hp].
    intros q _. pose proof (Cmod_ge_0 (f q)). nra. }
  apply Rmult_integral in H0. tauto.
Qed.
Lemma norm2_scal s a f : norm2 s (fun p => a * f p) = (Cmod a * Cmod a * norm2 s f)%R.
Proof. unfold norm2. rewrite <- rsum_over_scal. apply rsum_over_ext. intros p _. rewrite Cmod_mult. ring. Qed.

Lemma norm2_expand s f g : norm2 s (fun p => f p + g p) = (norm2 s f + norm2 s g + 2 * fst (ip s f g))%R.
Proof.
  apply RtoC_inj. rewrite <- ip_self, ip_plus_r, !ip_plus_l, !RtoC_plus, RtoC_mult, <- !ip_self, <- (ip_conj s f g).
  generalize (ip s f f) (ip s g g) (ip s f g). intros a b c. apply C_eq; cbn; ring.
Qed.

Lemma cauchy_schwarz s f g : (Cmod (ip s f g) * Cmod (ip s f g) <= norm2 s f * norm2 s g)%R.
Proof.
  pose proof (norm2_nonneg s f) as Hf. pose proof (norm2_nonneg s g) as Hg.
  destruct (Req_dec (norm2 s f) 0) as [H0|H0].
  - assert (ip s f g = 0) as ->.
    { transitivity (sum_over s (fun _ => 0)); [|apply sum_over_zero]. apply sum_over_ext. intros p Hp.
      rewrite (norm2_zero s f H0 p Hp), Cconj_R. ring. }
    rewrite Cmod_0. nra.
  - set (t := - ip s f g / RtoC (norm2 s f)).
    pose proof (norm2_nonneg s (fun p => g p + t * f p)) as H. rewrite norm2_expand, norm2_scal, ip_scal_r in H.
    rewrite <- (ip_conj s f g) in H.
    assert (Cmod t * Cmod t = Cmod (ip s f g) * Cmod (ip s f g) / (norm2 s f * norm2 s f))%R as Ht.
    { unfold t. rewrite Cmod_div by (intros E; apply RtoC_inj in E; contradiction).
      rewrite Cmod_opp, Cmod_R, Rabs_pos_eq by assumption. field. assumption. }
    assert (fst (Cmult t (Cconj (ip s f g))) = - (Cmod (ip s f g) * Cmod (ip s f g)) / norm2 s f)%R as Ht2.
    { unfold t. replace (- ip s f g / RtoC (norm2 s f) * Cconj (ip s f g)) with (- (Cconj (ip s f g) * ip s f g) / RtoC (norm2 s f)).
      - rewrite Cmult_conj, <- RtoC_opp, <- RtoC_div by assumption. reflexivity.
      - field. intros E. apply RtoC_inj in E. contradiction. }
    rewrite Ht, Ht2 in H.
    assert (norm2 s g - Cmod (ip s f g) * Cmod (ip s f g) / norm2 s f >= 0)%R as H1.
    { replace (norm2 s g - Cmod (ip s f g) * Cmod (ip s f g) / norm2 s f)%R with
        (norm2 s g + Cmod (ip s f g) * Cmod (ip s f g) / (norm2 s f * norm2 s f) * norm2 s f +
         2 * (- (Cmod (ip s f g) * Cmod (ip s f g)) / norm2 s f))%R by (field; assumption). lra. }
    assert (0 < norm2 s f)%R as Hp by lra.

    assert (norm2 s f * (norm2 s g - Cmod (ip s f g) * Cmod (ip s f g) / norm2 s f) >= 0)%R as H2 by nra.
    replace (norm2 s f * (norm2 s g - Cmod (ip s f g) * Cmod (ip s f g) / norm2 s f))%R with
      (norm2 s f * norm2 s g - Cmod (ip s f g) * Cmod (ip s f g))%R in H2 by (field; assumption). lra.
Qed.
