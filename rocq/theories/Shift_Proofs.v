(** Sub-pixel shifts are translations of the trigonometric interpolation. *)
From Coq Require Import Reals List Arith Bool ZArith Lia Lra.
Require Import Verif.Base Verif.CSum Verif.Field Verif.Fourier_Model Verif.Fourier_Spec Verif.Fourier_Proofs Verif.Vec_Model Verif.Modes_Model Verif.Modes_Proofs.
Require Import Verif.Shift_Model Verif.Shift_Spec Verif.Cplx.
Import ListNotations.
Local Open Scope R_scope.
Local Open Scope C_scope.

Lemma near_zero_true x : near_zero x = true <-> (Rabs x <= / 100000000)%R.
Proof. unfold near_zero, Rleb. destruct (Rle_dec _ _); split; try easy; intros; contradiction. Qed.
Lemma near_zero_false x : near_zero x = false <-> (/ 100000000 < Rabs x)%R.
Proof. unfold near_zero, Rleb. destruct (Rle_dec _ _); split; try easy; intros; lra. Qed.

Lemma cis_2PI_Z z : cis (2 * PI * IZR z) = 1.
Proof.
  destruct (Z_le_gt_dec 0 z) as [H|H].
  - rewrite <- (Z2Nat.id z H), <- INR_IZR_INZ. apply cis_2PI_nat.
  - replace (2 * PI * IZR z)%R with (- (2 * PI * INR (Z.to_nat (- z))))%R by (rewrite INR_IZR_INZ, Z2Nat.id, opp_IZR by lia; ring).
    rewrite cis_neg, cis_2PI_nat. apply Cconj_R.
Qed.
(** Frequencies that differ by a multiple of n are equal on the grid. *)
Lemma cis_alias n (a b : Z) (i : Z) : (0 < n)%nat -> (exists c, a = b + c * Z.of_nat n)%Z -> cis (2 * PI * (IZR i * IZR a) / INR n) = cis (2 * PI * (IZR i * IZR b) / INR n).
Proof.
  intros N (c & ->). pose proof (lt_0_INR n N). replace (2 * PI * (IZR i * IZR (b + c * Z.of_nat n)) / INR n)%R with (2 * PI * (IZR i * IZR b) / INR n + 2 * PI * IZR (i * c))%R.
  - rewrite cis_plus, cis_2PI_Z. ring.
  - rewrite plus_IZR, !mult_IZR, <- INR_IZR_INZ. field. lra.
Qed.
Lemma k_index_alias n j : exists c, k_index n j = (Z.of_nat j + c * Z.of_nat n)%Z.
Proof. unfold k_index. destruct (Nat.ltb _ _); [exists 0%Z|exists (-1)%Z]; lia. Qed.
Lemma cis_k n q i : (0 < n)%nat -> cis (2 * PI * IZR (k_index n q) * INR i / INR n) = cis (2 * PI * (INR i * INR q) / INR n).
Proof.
  intros N. rewrite (INR_IZR_INZ i), (INR_IZR_INZ q). rewrite <- (cis_alias n (k_index n q) (Z.of_nat q)) by (exact N || apply k_index_alias). f_equal. unfold Rdiv. ring.
Qed.

(** ** One axis *)
Definition rot (n : nat) (d : R) (g : nat -> C) (i : nat) : C :=
  csum n (fun q => cis (2 * PI * IZR (k_index n q) * (INR i - d) / INR n) * csum n (fun j => cis (- (2 * PI * (INR j * INR q) / INR n)) * g j)) / RtoC (INR n).
Lemma rot_ext n d g h i : (forall j, (j < n)%nat -> g j = h j) -> rot n d g i = rot n d h i.
Proof. intros E. unfold rot. f_equal. apply csum_ext. intros q _. f_equal. apply csum_ext. intros j Hj. rewrite E by exact Hj. reflexivity. Qed.
Lemma rot_0 n g i : (i < n)%nat -> rot n 0 g i = g i.
Proof.
  intros Hi. unfold rot. assert (0 < n)%nat as N by lia. pose proof (lt_0_INR n N) as P.
  rewrite (csum_ext n _ (fun q => csum n (fun j => cis (INR q * (2 * PI * INR i / INR n)) * Cconj (cis (INR q * (2 * PI * INR j / INR n))) * g j))).
  - rewrite csum_swap. rewrite (csum_ext n _ (fun j => if Nat.eqb j i then RtoC (INR n) * g j else 0)).
    + rewrite csum_delta by exact Hi. field. intros H. apply RtoC_inj in H. lra.
    + intros j Hj. rewrite csum_scal_r.
      rewrite (csum_ext n _ (fun q => cis (2 * PI * (INR i * INR q) / INR n - 2 * PI * (INR j * INR q) / INR n))).
      * rewrite csum_orthogonal by assumption. rewrite (Nat.eqb_sym j i). destruct (Nat.eqb i j); ring.
      * intros q _. rewrite cis_minus. f_equal; [|f_equal]; f_equal; unfold Rdiv; ring.
  - intros q _. rewrite <- csum_scal. apply csum_ext. intros j _. rewrite Rminus_0_r, cis_k by exact N. rewrite Cmult_assoc. f_equal. rewrite cis_neg. f_equal; [|f_equal]; f_equal; unfold Rdiv; ring.
Qed.
Lemma angle_minus s : forall q p t, inside s p -> length t = length s -> inside s q -> cis (angle s q (behind p t)) = cis (phase s p q) * cis (- angle s q t).
Proof.
  induction s as [|n s IH]; intros q p t Hp L Hq; inversion Hp; inversion Hq; subst; destruct t as [|d t]; try discriminate; cbn [angle behind phase].
  - rewrite Ropp_0, cis_0. ring.
  - assert (0 < n)%nat as N by lia. injection L as L. rewrite Ropp_plus_distr, !cis_plus, IH by assumption.
    replace (2 * PI * IZR (k_index n y0) * (INR y - d) / INR n)%R with (2 * PI * IZR (k_index n y0) * INR y / INR n + - (2 * PI * IZR (k_index n y0) * d / INR n))%R by (unfold Rdiv; ring).
    rewrite cis_plus, cis_k by exact N. ring.
Qed.
Lemma moved_ift s t f : length t = length s -> agree s (moved s t f) (ift s (fun q => ft s f q * cis (- angle s q t))).
Proof. intros L p Hp. unfold moved, interpolate, ift. f_equal. apply sum_over_ext. intros q Hq. rewrite angle_minus by assumption. ring. Qed.
Lemma ft_cons n s f i q : ft (n :: s) f (i :: q) = csum n (fun j => cis (- (2 * PI * (INR j * INR i) / INR n)) * ft s (fun p => f (j :: p)) q).
Proof.
  unfold ft. cbn [sum_over]. apply csum_ext. intros j _. rewrite <- sum_over_scal. apply sum_over_ext. intros p _. cbn [phase]. rewrite Ropp_plus_distr, cis_plus. ring.
Qed.
Lemma moved_cons n s d t f i p : (0 < n)%nat -> nonempty s -> moved (n :: s) (d :: t) f (i :: p) = rot n d (fun j => moved s t (fun p => f (j :: p)) p) i.
Proof.
  intros N S. pose proof (lt_0_INR n N) as P. pose proof (points_neq_0 s S) as P'. assert (RtoC (INR n) <> 0) as N' by (intros H; apply RtoC_inj in H; lra).
  unfold moved, interpolate, rot. cbn [sum_over behind angle points fold_right]. fold (points s).
  rewrite (csum_ext n _ (fun q => cis (2 * PI * IZR (k_index n q) * (INR i - d) / INR n) * csum n (fun j => cis (- (2 * PI * (INR j * INR q) / INR n)) * sum_over s (fun q => ft s (fun p => f (j :: p)) q * cis (angle s q (behind p t)))))).
  - rewrite (csum_ext n (fun q => _ * csum n (fun j => _ * (_ / _))) (fun q => cis (2 * PI * IZR (k_index n q) * (INR i - d) / INR n) * csum n (fun j => cis (- (2 * PI * (INR j * INR q) / INR n)) * sum_over s (fun q => ft s (fun p => f (j :: p)) q * cis (angle s q (behind p t)))) * / RtoC (INR (points s)))).
    + rewrite csum_scal_r. rewrite mult_INR, RtoC_mult. field. split; assumption.
    + intros q _. rewrite <- Cmult_assoc. f_equal. rewrite <- csum_scal_r. apply csum_ext. intros j _. unfold Cdiv. ring.
  - intros q _. rewrite <- csum_scal. rewrite (csum_ext n _ (fun j => sum_over s (fun q' => cis (2 * PI * IZR (k_index n q) * (INR i - d) / INR n) * (cis (- (2 * PI * (INR j * INR q) / INR n)) * (ft s (fun p => f (j :: p)) q' * cis (angle s q' (behind p t))))))).
    + rewrite <- sum_over_csum. apply sum_over_ext. intros q' _. rewrite ft_cons, cis_plus, <- csum_scal_r. apply csum_ext. intros j _. ring.
    + intros j _. rewrite !sum_over_scal. reflexivity.
Qed.

(** ** Some of the axes *)
Lemma part_ift_ext m s : forall F G p, length m = length s -> agree s F G -> inside s p -> part_ift m s F p = part_ift m s G p.
Proof.
  revert m. induction s as [|n s IH]; intros m F G p L A Hp; inversion Hp; subst; destruct m as [|b m]; try discriminate; cbn [part_ift]; [apply A; constructor|]. injection L as L.
  assert (forall j, (j < n)%nat -> part_ift m s (fun q => F (j :: q)) l' = part_ift m s (fun q => G (j :: q)) l') as E by (intros j Hj; apply IH; [exact L|intros q Hq; apply A; constructor; assumption|assumption]).
  destruct b; [|apply E; assumption]. f_equal. apply csum_ext. intros j Hj. rewrite E by exact Hj. reflexivity.
Qed.
Lemma part_ift_csum m s : forall k (a : nat -> C) (F : nat -> sfield) p, part_ift m s (fun q => csum k (fun j => a j * F j q)) p = csum k (fun j => a j * part_ift m s (F j) p).
Proof.
  revert m. induction s as [|n s IH]; intros [|b m] k a F [|i p]; cbn [part_ift]; try reflexivity. destruct b; [|apply IH].
  rewrite (csum_ext n _ (fun j => csum k (fun l => a l * (cis (2 * PI * (INR i * INR j) / INR n) * part_ift m s (fun q => F l (j :: q)) p)))).
  - rewrite csum_swap. unfold Cdiv. rewrite <- csum_scal_r. apply csum_ext. intros l _. rewrite csum_scal. ring.
  - intros j _. rewrite IH, <- csum_scal. apply csum_ext. intros l _. ring.
Qed.
Lemma part_moved s : forall m t f p, length m = length s -> length t = length s -> Forall2 (fun (b : bool) d => b = false -> d = 0%R) m t -> inside s p ->
  part_ift m s (fun q => part_ft m s f q * cis (- angle s q t)) p = moved s t f p.
Proof.
  induction s as [|n s IH]; intros m t f p Lm Lt Z Hp; inversion Hp as [|? i ? p' Hi Hp']; subst; destruct m as [|b m]; try discriminate; destruct t as [|d t]; try discriminate.
  - cbn. unfold moved, interpolate, ft. cbn. rewrite Ropp_0, cis_0. field. intros H. apply RtoC_inj in H. lra.
  - injection Lm as Lm. injection Lt as Lt. inversion Z as [|? ? ? ? Z1 Z2]; subst. pose proof (inside_nonempty _ _ Hp') as S. assert (0 < n)%nat as N by lia. rewrite moved_cons by assumption. cbn [part_ift part_ft angle]. destruct b.
    + unfold rot. f_equal. apply csum_ext. intros q Hq.
      rewrite (part_ift_ext m s _ (fun q' => csum n (fun j => (cis (- (2 * PI * IZR (k_index n q) * d / INR n)) * cis (- (2 * PI * (INR j * INR q) / INR n))) * (part_ft m s (fun p => f (j :: p)) q' * cis (- angle s q' t))))) by
        (try assumption; intros q' _; rewrite Ropp_plus_distr, cis_plus, <- csum_scal_r; apply csum_ext; intros j _; ring).
      rewrite part_ift_csum, <- !csum_scal. apply csum_ext. intros j _. rewrite (IH m t _ p' Lm Lt Z2 Hp').
      replace (2 * PI * IZR (k_index n q) * (INR i - d) / INR n)%R with (2 * PI * IZR (k_index n q) * INR i / INR n + - (2 * PI * IZR (k_index n q) * d / INR n))%R by (unfold Rdiv; ring).
      rewrite cis_plus, cis_k by exact N. ring.
    + rewrite Z1 by reflexivity. rewrite rot_0 by exact Hi. rewrite <- (IH m t _ p' Lm Lt Z2 Hp'). apply part_ift_ext; try assumption. intros q' _. f_equal. f_equal. unfold Rdiv. ring.
Qed.

(** ** roll *)
Lemma turn_angle s : forall t q, Forall2 resolved_shift s t -> turn t s q = cis (- angle s q t).
Proof.
  induction s as [|n s IH]; intros t q H; inversion H as [|? d ? t' R1 R2]; subst; cbn [turn angle]; [rewrite Ropp_0, cis_0; reflexivity|].
  destruct q as [|i q]; [rewrite Ropp_0, cis_0; reflexivity|]. rewrite Ropp_plus_distr, cis_plus, IH by exact R2. destruct R1 as [->|[_ R1]].
  - replace (2 * PI * 0 / INR n)%R with 0%R by (unfold Rdiv; ring). replace (near_zero 0) with true by (symmetry; apply near_zero_true; rewrite Rabs_R0; lra).
    replace (- (2 * PI * IZR (k_index n i) * 0 / INR n))%R with 0%R by (unfold Rdiv; ring). rewrite cis_0. ring.
  - replace (near_zero _) with false by (symmetry; apply near_zero_false; exact R1). rewrite Cmult_comm. f_equal. f_equal. unfold Rdiv. ring.
Qed.
Lemma lookup_none l v a : existsb (Nat.eqb a) l = false -> lookup l v a = 0%R.
Proof.
  revert v. induction l as [|x l IH]; intros [|d v] H; cbn in *; try reflexivity. apply orb_false_iff in H as [H1 H2]. rewrite Nat.eqb_sym, H1. apply IH, H2.
Qed.
Lemma lookup_in l v a : lookup l v a = 0%R \/ In (lookup l v a) v.
Proof. revert v. induction l as [|x l IH]; intros [|d v]; cbn; auto. destruct (x =? a)%nat; [right; left; reflexivity|]. destruct (IH v) as [E|E]; auto. Qed.
Lemma per_axis_length d l v : length (per_axis d l v) = d.
Proof. unfold per_axis. rewrite map_length. apply seq_length. Qed.
Lemma mask_length d l : length (mask d l) = d.
Proof. unfold mask. rewrite map_length. apply seq_length. Qed.
Lemma mask_zero d l v : Forall2 (fun (b : bool) x => b = false -> x = 0%R) (mask d l) (per_axis d l v).
Proof. unfold mask, per_axis. induction (seq 0 d) as [|a r IH]; constructor; [apply lookup_none|exact IH]. Qed.
Lemma assigned_in l shift v x : assigned l shift = Ok v -> In x v -> In x shift.
Proof.
  unfold assigned. destruct (_ =? _)%nat; [intros H; injection H as <-; auto|]. destruct shift as [|d [|]]; try discriminate. intros H; injection H as <-. intros H. apply repeat_spec in H. subst. left. reflexivity.
Qed.
Lemma zero_angle s t q : Forall (fun d => d = 0%R) t -> angle s q t = 0%R.
Proof.
  revert t q. induction s as [|n s IH]; intros [|d t] [|i q] H; cbn; try reflexivity. inversion H; subst. rewrite IH by assumption. unfold Rdiv. ring.
Qed.
Lemma roll_moved s axes shift f l v : axis_numbers (length s) (chosen_axes axes (length shift)) = Some l -> assigned l shift = Ok v -> Forall2 resolved_shift s (per_axis (length s) l v) ->
  exists g, roll s axes shift f = Ok g /\ agree s g (moved s (per_axis (length s) l v) f).
Proof.
  intros A V R. unfold roll. rewrite A. unfold roll_ft. cbn [chosen_axes]. destruct (forallb near_zero shift) eqn:E; cbn [rmap].
  - eexists. split; [reflexivity|]. intros p Hp. rewrite <- (part_moved s (mask (length s) l)) by (exact Hp || apply mask_length || apply per_axis_length || apply mask_zero).
    apply part_ift_ext; [apply mask_length| |exact Hp]. intros q Hq. rewrite zero_angle, Ropp_0, cis_0; [ring|]. rewrite forallb_forall in E.
    clear - R E V. assert (Forall (fun x => x = 0%R \/ (/ 100000000 < Rabs x)%R) (per_axis (length s) l v)) as H.
    { revert R. generalize (per_axis (length s) l v). generalize s. clear. induction s as [|n s IH]; intros t R; inversion R as [|? ? ? ? H ?]; subst; constructor; auto. destruct H as [H|[H _]]; auto. }
    apply Forall_forall. intros x Hx. rewrite Forall_forall in H. destruct (H x Hx) as [H0|H0]; [exact H0|]. unfold per_axis in Hx. apply in_map_iff in Hx as (a & <- & _).
    destruct (lookup_in l v a) as [L|L]; [exact L|]. apply (assigned_in _ _ _ _ V), E, near_zero_true in L. lra.
  - rewrite A, V. cbn [bind rmap]. eexists. split; [reflexivity|]. intros p Hp. rewrite <- (part_moved s (mask (length s) l)) by (exact Hp || apply mask_length || apply per_axis_length || apply mask_zero).
    apply part_ift_ext; [apply mask_length| |exact Hp]. intros q Hq. rewrite turn_angle by exact R. reflexivity.
Qed.
