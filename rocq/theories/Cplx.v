(** Complex numbers (Coquelicot's pairs of reals) and the principal square root, shared by several models. *)
From Coq Require Import Reals Lra.
From Coquelicot Require Export Complex.
Local Open Scope R_scope.

Lemma C_eq (z w : C) : fst z = fst w -> snd z = snd w -> z = w.
Proof. destruct z, w; cbn; intros; subst; reflexivity. Qed.

(** The principal square root, as numpy.sqrt and numpy.lib.scimath.sqrt compute it: non-negative real part, and
    for a negative real number the positive imaginary axis. *)
Definition csqrt (z : C) : C :=
  (sqrt ((Cmod z + fst z) / 2), (if Rlt_dec (snd z) 0 then -1 else 1) * sqrt ((Cmod z - fst z) / 2)).

Lemma Cmod_sq (z : C) : Cmod z * Cmod z = fst z * fst z + snd z * snd z.
Proof.
  unfold Cmod. rewrite sqrt_sqrt; [ring|]. pose proof (pow2_ge_0 (fst z)). pose proof (pow2_ge_0 (snd z)). lra.
Qed.
Lemma Cmod_Re_le (z : C) : Rabs (fst z) <= Cmod z.
Proof.
  rewrite <- (Rabs_pos_eq (Cmod z)) by apply Cmod_ge_0. apply Rsqr_le_abs_0. unfold Rsqr. rewrite Cmod_sq.
  pose proof (Rle_0_sqr (snd z)). unfold Rsqr in *. lra.
Qed.
Lemma Cmod_Im_le (z : C) : Rabs (snd z) <= Cmod z.
Proof.
  rewrite <- (Rabs_pos_eq (Cmod z)) by apply Cmod_ge_0. apply Rsqr_le_abs_0. unfold Rsqr. rewrite Cmod_sq.
  pose proof (Rle_0_sqr (fst z)). unfold Rsqr in *. lra.
Qed.

Lemma csqrt_sq (z : C) : (csqrt z * csqrt z = z)%C.
Proof.
  pose proof (Cmod_Re_le z) as H. pose proof (Cmod_sq z) as Hs.
  assert (0 <= Cmod z + fst z /\ 0 <= Cmod z - fst z) as [H1 H2].
  { unfold Rabs in H. destruct (Rcase_abs (fst z)); lra. }
  assert (sqrt ((Cmod z + fst z) / 2) * sqrt ((Cmod z + fst z) / 2) = (Cmod z + fst z) / 2) as Q1 by (apply sqrt_sqrt; lra).
  assert (sqrt ((Cmod z - fst z) / 2) * sqrt ((Cmod z - fst z) / 2) = (Cmod z - fst z) / 2) as Q2 by (apply sqrt_sqrt; lra).
  assert (sqrt ((Cmod z + fst z) / 2) * sqrt ((Cmod z - fst z) / 2) = Rabs (snd z) / 2) as Q3.
  { rewrite <- sqrt_mult by lra. replace ((Cmod z + fst z) / 2 * ((Cmod z - fst z) / 2)) with ((snd z / 2) * (snd z / 2)).
    - change (snd z / 2 * (snd z / 2)) with (Rsqr (snd z / 2)). rewrite sqrt_Rsqr_abs. unfold Rdiv. rewrite Rabs_mult.
      rewrite (Rabs_pos_eq (/ 2)) by lra. reflexivity.
    - nra. }
  apply C_eq; unfold csqrt, Cmult; cbn [fst snd].
  - destruct (Rlt_dec (snd z) 0); nra.
  - destruct (Rlt_dec (snd z) 0); [rewrite Rabs_left in Q3 by assumption|rewrite Rabs_pos_eq in Q3 by lra]; nra.
Qed.
Lemma csqrt_Re (z : C) : 0 <= fst (csqrt z).
Proof. apply sqrt_pos. Qed.
Lemma csqrt_Im_sign (z : C) : 0 <= snd z -> 0 <= snd (csqrt z).
Proof. intros H. cbn. destruct (Rlt_dec (snd z) 0); [lra|]. rewrite Rmult_1_l. apply sqrt_pos. Qed.
Lemma csqrt_pos (x : R) : 0 <= x -> csqrt (RtoC x) = RtoC (sqrt x).
Proof.
  intros H. apply C_eq; unfold csqrt; cbn [fst snd RtoC]; rewrite Cmod_R, Rabs_pos_eq by assumption.
  - f_equal. lra.
  - replace ((x - x) / 2) with 0 by lra. rewrite sqrt_0. destruct (Rlt_dec 0 0); lra.
Qed.
