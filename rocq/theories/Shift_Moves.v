(** Translations: groups, cyclic shifts, plane waves, norms and real values; and which axes are shifted. *)
From Coq Require Import Reals List Arith Bool ZArith Lia Lra.
Require Import Verif.Base Verif.CSum Verif.Field Verif.Fourier_Model Verif.Fourier_Spec Verif.Fourier_Proofs Verif.Vec_Model Verif.Modes_Model Verif.Modes_Proofs.
Require Import Verif.Shift_Model Verif.Shift_Spec Verif.Shift_Proofs Verif.Cplx.
Import ListNotations.
Local Open Scope R_scope.
Local Open Scope C_scope.

Lemma angle_both s : forall q t u, length t = length s -> length u = length s -> angle s q (both t u) = (angle s q t + angle s q u)%R.
Proof.
  induction s as [|n s IH]; intros [|i q] [|d t] [|e u] L M; try discriminate; try (cbn; ring). change (both (d :: t) (e :: u)) with ((d + e)%R :: both t u). cbn [angle]. rewrite (IH q t u) by (injection L; injection M; auto). unfold Rdiv. ring.
Qed.
Lemma both_length t u : length t = length u -> length (both t u) = length t.
Proof. intros L. unfold both. rewrite map_length, combine_length. lia. Qed.
Lemma moved_ext s t f g p : agree s f g -> moved s t f p = moved s t g p.
Proof. intros A. unfold moved, interpolate. f_equal. apply sum_over_ext. intros q _. rewrite (ft_ext s f g q A). reflexivity. Qed.
Lemma ft_moved s t f q : length t = length s -> inside s q -> ft s (moved s t f) q = ft s f q * cis (- angle s q t).
Proof.
  intros L Hq. rewrite (ft_ext s _ _ q (moved_ift s t f L)). rewrite (ft_ift s _ q Hq). reflexivity.
Qed.
Lemma moved_moved s t u f : length t = length s -> length u = length s -> agree s (moved s t (moved s u f)) (moved s (both t u) f).
Proof.
  intros L M p Hp. rewrite (moved_ift s t _ L p Hp), (moved_ift s (both t u) f) by (exact Hp || (rewrite both_length; lia)).
  unfold ift. f_equal. apply sum_over_ext. intros q Hq. rewrite ft_moved by assumption. rewrite angle_both, Ropp_plus_distr, cis_plus by assumption. ring.
Qed.
Lemma moved_zero s t f : length t = length s -> Forall (fun d => d = 0%R) t -> agree s (moved s t f) f.
Proof.
  intros L Z p Hp. rewrite (moved_ift s t f L p Hp). etransitivity; [|apply (ift_ft s f p Hp)]. unfold ift. f_equal. apply sum_over_ext. intros q _. rewrite zero_angle, Ropp_0, cis_0 by exact Z. ring.
Qed.
Lemma both_back t : Forall (fun d => d = 0%R) (both (back t) t).
Proof. induction t as [|d t IH]; cbn; constructor; [cbn; ring|exact IH]. Qed.
Lemma back_length t : length (back t) = length t.
Proof. apply map_length. Qed.
Lemma moved_back s t f : length t = length s -> agree s (moved s (back t) (moved s t f)) f.
Proof.
  intros L p Hp. rewrite (moved_moved s (back t) t f) by (exact Hp || exact L || (rewrite back_length; exact L)). apply moved_zero; [|apply both_back|exact Hp]. rewrite both_length; rewrite back_length; lia.
Qed.
Lemma moved_plus s t f g p : moved s t (fun p => f p + g p) p = moved s t f p + moved s t g p.
Proof.
  unfold moved, interpolate, Cdiv. rewrite <- Cmult_plus_distr_r, <- sum_over_plus. f_equal. apply sum_over_ext. intros q _. rewrite ft_plus. ring.
Qed.
Lemma moved_scal s t a f p : moved s t (fun p => a * f p) p = a * moved s t f p.
Proof. unfold moved, interpolate, Cdiv. rewrite Cmult_assoc, <- sum_over_scal. f_equal. apply sum_over_ext. intros q _. rewrite ft_scal. ring. Qed.
Lemma moved_norm2 s t f : nonempty s -> length t = length s -> norm2 s (moved s t f) = norm2 s f.
Proof.
  intros S L. pose proof (points_pos s S) as P. apply lt_0_INR in P. apply (Rmult_eq_reg_l (INR (points s))); [|lra]. rewrite <- !ft_norm2 by exact S.
  unfold norm2. apply rsum_over_ext. intros q Hq. rewrite ft_moved by assumption. rewrite Cmod_mult, cis_mod. ring.
Qed.

(** ** Integer shifts *)
Lemma rot_Z n d g i : (i < n)%nat -> rot n (IZR d) g i = g (Z.to_nat ((Z.of_nat i - d) mod Z.of_nat n)).
Proof.
  intros Hi. assert (0 < n)%nat as N by lia. set (r := Z.to_nat _). pose proof (Z.mod_pos_bound (Z.of_nat i - d) (Z.of_nat n) ltac:(lia)) as B. assert (r < n)%nat as Hr by (unfold r; lia).
  rewrite <- (rot_0 n g r Hr). unfold rot. f_equal. apply csum_ext. intros q _. f_equal. rewrite Rminus_0_r.
  transitivity (cis (2 * PI * (IZR (k_index n q) * IZR (Z.of_nat i - d)) / INR n)); [f_equal; rewrite minus_IZR, <- INR_IZR_INZ; unfold Rdiv; ring|].
  transitivity (cis (2 * PI * (IZR (k_index n q) * IZR (Z.of_nat r)) / INR n)); [|f_equal; rewrite <- INR_IZR_INZ; unfold Rdiv; ring].
  apply cis_alias; [exact N|]. exists ((Z.of_nat i - d) / Z.of_nat n)%Z. unfold r. rewrite Z2Nat.id by lia. pose proof (Z.div_mod (Z.of_nat i - d) (Z.of_nat n) ltac:(lia)). lia.
Qed.
Lemma moved_cyclic s : forall t f, length t = length s -> agree s (moved s (map IZR t) f) (cyclic s t f).
Proof.
  induction s as [|n s IH]; intros [|d t] f L p Hp; try discriminate; inversion Hp as [|? i ? p' Hi Hp']; subst.
  - apply (moved_zero [] [] f eq_refl (Forall_nil _) [] Hp).
  - injection L as L. cbn [map]. rewrite moved_cons by (lia || apply (inside_nonempty _ _ Hp')). rewrite rot_Z by exact Hi. rewrite (IH t _ L p' Hp'). reflexivity.
Qed.

(** ** Plane waves *)
Lemma csum_cis n a (k : Z) : (0 < n)%nat -> (a < n)%nat -> csum n (fun j => cis (- (2 * PI * (INR j * INR a) / INR n)) * cis (2 * PI * IZR k * INR j / INR n)) =
  if (Z.of_nat a =? k mod Z.of_nat n)%Z then RtoC (INR n) else 0.
Proof.
  intros N Ha. pose proof (Z.mod_pos_bound k (Z.of_nat n) ltac:(lia)) as B. set (b := Z.to_nat (k mod Z.of_nat n)). assert (b < n)%nat as Hb by (unfold b; lia).
  rewrite (csum_ext n _ (fun j => cis (2 * PI * (INR b * INR j) / INR n - 2 * PI * (INR a * INR j) / INR n))).
  - rewrite csum_orthogonal by assumption. replace (b =? a)%nat with (Z.of_nat a =? k mod Z.of_nat n)%Z; [reflexivity|]. apply eq_true_iff_eq. rewrite Z.eqb_eq, Nat.eqb_eq. unfold b. lia.
  - intros j _. unfold Rminus. rewrite cis_plus, Cmult_comm. f_equal; [|f_equal; unfold Rdiv; ring].
    transitivity (cis (2 * PI * (IZR (Z.of_nat j) * IZR k) / INR n)); [f_equal; rewrite <- INR_IZR_INZ; unfold Rdiv; ring|].
    transitivity (cis (2 * PI * (IZR (Z.of_nat j) * IZR (Z.of_nat b)) / INR n)); [|f_equal; rewrite <- !INR_IZR_INZ; unfold Rdiv; ring].
    apply cis_alias; [exact N|]. exists (k / Z.of_nat n)%Z. unfold b. rewrite Z2Nat.id by lia. pose proof (Z.div_mod k (Z.of_nat n) ltac:(lia)). lia.
Qed.
Lemma rot_cis n d (k : Z) i : (0 < n)%nat -> (- Z.of_nat n <= 2 * k < Z.of_nat n)%Z -> rot n d (fun j => cis (2 * PI * IZR k * INR j / INR n)) i = cis (2 * PI * IZR k * (INR i - d) / INR n).
Proof.
  intros N K. unfold rot. pose proof (lt_0_INR n N) as P. pose proof (Z.mod_pos_bound k (Z.of_nat n) ltac:(lia)) as B.
  rewrite (csum_ext n _ (fun q => if Nat.eqb q (Z.to_nat (k mod Z.of_nat n)) then cis (2 * PI * IZR (k_index n q) * (INR i - d) / INR n) * RtoC (INR n) else 0)).
  - rewrite csum_delta by lia. replace (k_index n (Z.to_nat (k mod Z.of_nat n))) with k; [field; intros H; apply RtoC_inj in H; lra|].
    unfold k_index. destruct (Z_lt_ge_dec k 0).
    + replace (k mod Z.of_nat n)%Z with (k + Z.of_nat n)%Z by (apply (Z.mod_unique _ _ (-1)%Z); lia). destruct (Nat.ltb_spec (2 * Z.to_nat (k + Z.of_nat n)) n); lia.
    + rewrite Z.mod_small by lia. destruct (Nat.ltb_spec (2 * Z.to_nat k) n); lia.
  - intros q Hq. rewrite csum_cis by assumption. replace (Nat.eqb q _) with (Z.of_nat q =? k mod Z.of_nat n)%Z; [destruct (_ =? _)%Z; ring|]. apply eq_true_iff_eq. rewrite Z.eqb_eq, Nat.eqb_eq. lia.
Qed.
Lemma rot_scal n d a g i : rot n d (fun j => a * g j) i = a * rot n d g i.
Proof.
  unfold rot, Cdiv. rewrite Cmult_assoc. rewrite <- csum_scal. f_equal. apply csum_ext. intros q _. transitivity (cis (2 * PI * IZR (k_index n q) * (INR i - d) / INR n) * (a * csum n (fun j => cis (- (2 * PI * (INR j * INR q) / INR n)) * g j))); [|ring].
  f_equal. rewrite <- csum_scal. apply csum_ext. intros j _. ring.
Qed.
Lemma moved_plane s : forall k t, length t = length s -> represented s k ->
  agree s (moved s t (fun p => cis (plane_angle s k (at_index p)))) (fun p => cis (plane_angle s k (behind p t))).
Proof.
  induction s as [|n s IH]; intros k t L K p Hp; destruct t as [|d t]; try discriminate; inversion K as [|? a ? k' K1 K2]; inversion Hp as [|? i ? p' Hi Hp']; subst.
  - rewrite (moved_zero [] [] _ eq_refl (Forall_nil _) [] Hp). reflexivity.
  - injection L as L. rewrite moved_cons by (lia || apply (inside_nonempty _ _ Hp')). cbn [plane_angle at_index map behind]. rewrite cis_plus.
    rewrite (rot_ext n d _ (fun j => cis (plane_angle s k' (behind p' t)) * cis (2 * PI * IZR a * INR j / INR n))).
    + rewrite rot_scal, rot_cis by (lia || exact K1). ring.
    + intros j _. rewrite <- (IH k' t L K2 p' Hp'). rewrite Cmult_comm, <- moved_scal. apply moved_ext. intros q _. rewrite cis_plus. reflexivity.
Qed.

(** ** Real values *)
Lemma csum_first n h : csum (Datatypes.S n) h = h 0%nat + csum n (fun q => h (Datatypes.S q)).
Proof. induction n as [|n IH]; [cbn; ring|]. cbn [csum] in *. rewrite IH. ring. Qed.
Lemma csum_rev n h : csum n (fun q => h (n - 1 - q)%nat) = csum n h.
Proof.
  induction n as [|n IH]; [reflexivity|]. rewrite csum_first. cbn [csum]. rewrite <- IH. replace (Datatypes.S n - 1 - 0)%nat with n by lia. rewrite Cplus_comm. f_equal. apply csum_ext. intros q _. f_equal. lia.
Qed.
Lemma csum_mirror n h : csum n (fun q => h (if Nat.eqb q 0 then 0 else n - q)%nat) = csum n h.
Proof.
  destruct n as [|n]; [reflexivity|]. rewrite !csum_first. cbn [Nat.eqb]. f_equal. rewrite <- (csum_rev n (fun q => h (Datatypes.S q))). apply csum_ext. intros q Hq. f_equal. lia.
Qed.
Lemma rot_conj n d g i : Nat.odd n = true -> Cconj (rot n d g i) = rot n d (fun j => Cconj (g j)) i.
Proof.
  intros O. assert (0 < n)%nat as N by (destruct n; [discriminate|lia]). unfold rot. rewrite Cconj_div, Cconj_R. f_equal. rewrite csum_conj, <- csum_mirror. apply csum_ext. intros q Hq. rewrite Cconj_mult, <- cis_neg.
  set (q' := if Nat.eqb q 0 then 0%nat else (n - q)%nat). assert (k_index n q' = - k_index n q)%Z as K.
  { apply Nat.odd_spec in O as (m & Hm). unfold q', k_index. destruct (Nat.eqb_spec q 0) as [E|E]; [destruct (Nat.ltb_spec (2 * 0) n), (Nat.ltb_spec (2 * q) n)|destruct (Nat.ltb_spec (2 * (n - q)) n), (Nat.ltb_spec (2 * q) n)]; lia. }
  f_equal; [f_equal; rewrite K, opp_IZR; unfold Rdiv; ring|]. rewrite csum_conj. apply csum_ext. intros j _. rewrite Cconj_mult. f_equal.
  rewrite !cis_neg, Cconj_conj. rewrite <- (cis_k n q j N), <- (cis_k n q' j N), K, opp_IZR, <- cis_neg. f_equal. unfold Rdiv. ring.
Qed.
Lemma moved_conj s : forall t f, Forall (fun n => Nat.odd n = true) s -> length t = length s -> agree s (fun p => Cconj (moved s t f p)) (moved s t (fun p => Cconj (f p))).
Proof.
  induction s as [|n s IH]; intros [|d t] f O L p Hp; try discriminate; inversion Hp as [|? i ? p' Hi Hp']; inversion O; subst.
  - rewrite !(moved_zero [] [] _ eq_refl (Forall_nil _) [] Hp). reflexivity.
  - injection L as L. pose proof (inside_nonempty _ _ Hp') as S. assert (0 < n)%nat as N by lia. cbv beta. rewrite (moved_cons n s d t f i p' N S), (moved_cons n s d t _ i p' N S). rewrite rot_conj by assumption. apply rot_ext. intros j Hj. apply (IH t); assumption.
Qed.
Lemma moved_real s t f : Forall (fun n => Nat.odd n = true) s -> length t = length s -> (forall p, inside s p -> snd (f p) = 0%R) -> forall p, inside s p -> snd (moved s t f p) = 0%R.
Proof.
  intros O L F p Hp. pose proof (moved_conj s t f O L p Hp) as E. cbv beta in E. rewrite (moved_ext s t (fun p => Cconj (f p)) f) in E.
  - revert E. generalize (moved s t f p). intros z E. apply (f_equal snd) in E. cbn in E. lra.
  - intros q Hq. apply C_eq; cbn; [reflexivity|]. rewrite F by exact Hq. ring.
Qed.

(** ** Axes *)
Lemma axis_numbers_nat d l : Forall (fun a => (a < d)%nat) l -> axis_numbers d (map Z.of_nat l) = Some l.
Proof.
  induction 1 as [|a l H _ IH]; [reflexivity|]. cbn [map axis_numbers]. rewrite IH. unfold axis_number.
  destruct (Z.leb_spec 0 (Z.of_nat a)), (Z.ltb_spec (Z.of_nat a) (Z.of_nat d)); try lia. cbn [andb]. rewrite Nat2Z.id. reflexivity.
Qed.
Lemma axis_numbers_right d k l : (k <= d)%nat -> (forall i, In i l -> i < k)%nat -> axis_numbers d (map (fun i => (Z.of_nat i - Z.of_nat k)%Z) l) = Some (map (fun i => d - k + i)%nat l).
Proof.
  intros K. induction l as [|i l IH]; intros H; [reflexivity|]. cbn [map axis_numbers]. rewrite IH by (intros j Hj; apply H; right; exact Hj). pose proof (H i (or_introl eq_refl)).
  unfold axis_number. destruct (Z.leb_spec 0 (Z.of_nat i - Z.of_nat k)); [lia|]. cbn [andb].
  destruct (Z.leb_spec (- Z.of_nat d) (Z.of_nat i - Z.of_nat k)), (Z.ltb_spec (Z.of_nat i - Z.of_nat k) 0); try lia. cbn [andb]. f_equal. f_equal. lia.
Qed.
Lemma default_axes d k : (k <= d)%nat -> axis_numbers d (chosen_axes None k) = Some (seq (d - k) k).
Proof.
  intros K. cbn [chosen_axes]. rewrite axis_numbers_right by (try exact K; intros i Hi; apply in_seq in Hi; lia). f_equal. generalize (d - k)%nat as a. intros a.
  assert (forall b, map (fun i => a + i)%nat (seq b k) = seq (a + b) k) as E by (clear K; induction k as [|k IH]; intros b; [reflexivity|]; cbn [seq map]; rewrite IH; f_equal; f_equal; lia).
  rewrite E, Nat.add_0_r. reflexivity.
Qed.
Lemma default_axes_none d k : (d < k)%nat -> axis_numbers d (chosen_axes None k) = None.
Proof.
  intros K. destruct k as [|k]; [lia|]. cbn [chosen_axes seq map axis_numbers]. unfold axis_number.
  destruct (Z.leb_spec 0 (Z.of_nat 0 - Z.of_nat (Datatypes.S k))); [lia|]. destruct (Z.leb_spec (- Z.of_nat d) (Z.of_nat 0 - Z.of_nat (Datatypes.S k))); [lia|]. reflexivity.
Qed.
Lemma lookup_seq a v : forall b, (a <= b < a + length v)%nat -> lookup (seq a (length v)) v b = nth (b - a) v 0%R.
Proof.
  revert a. induction v as [|x v IH]; intros a b H; cbn [length] in *; [lia|]. cbn [seq lookup]. destruct (Nat.eqb_spec a b) as [->|N]; [rewrite Nat.sub_diag; reflexivity|].
  rewrite IH by lia. replace (b - a)%nat with (Datatypes.S (b - Datatypes.S a)) by lia. reflexivity.
Qed.
Lemma nth_map_seq (h : nat -> R) : forall d a i, (i < d)%nat -> nth i (map h (seq a d)) 0%R = h (a + i)%nat.
Proof.
  induction d as [|d IH]; intros a i Hi; [lia|]. destruct i; cbn [seq map nth]; [rewrite Nat.add_0_r; reflexivity|]. rewrite IH by lia. f_equal. lia.
Qed.
Lemma nth_per_axis d l v a : (a < d)%nat -> nth a (per_axis d l v) 0%R = lookup l v a.
Proof. intros H. unfold per_axis. rewrite nth_map_seq by exact H. reflexivity. Qed.
Lemma per_axis_right d v : (length v <= d)%nat -> per_axis d (seq (d - length v) (length v)) v = repeat 0%R (d - length v) ++ v.
Proof.
  intros L. apply (nth_ext _ _ 0%R 0%R); [rewrite per_axis_length, app_length, repeat_length; lia|]. rewrite per_axis_length. intros a Ha. rewrite nth_per_axis by exact Ha.
  destruct (Nat.lt_ge_cases a (d - length v)) as [H|H].
  - rewrite app_nth1 by (rewrite repeat_length; exact H). rewrite nth_repeat. apply lookup_none. destruct (existsb _ _) eqn:E; [|reflexivity]. apply existsb_exists in E as (x & Hx & E). apply Nat.eqb_eq in E. apply in_seq in Hx. lia.
  - rewrite app_nth2 by (rewrite repeat_length; exact H). rewrite repeat_length. apply lookup_seq. lia.
Qed.
Lemma lookup_nth l : forall v i, NoDup l -> (i < length l)%nat -> length v = length l -> lookup l v (nth i l 0%nat) = nth i v 0%R.
Proof.
  induction l as [|a l IH]; intros v i D Hi L; cbn [length] in *; [lia|]. destruct v as [|x v]; [discriminate|]. inversion D; subst. destruct i as [|i]; cbn [nth lookup]; [rewrite Nat.eqb_refl; reflexivity|].
  destruct (Nat.eqb_spec a (nth i l 0%nat)) as [E|_]; [exfalso; apply H1; rewrite E; apply nth_In; lia|]. apply IH; auto; lia.
Qed.
Lemma per_axis_unique d l v t : NoDup l -> length v = length l -> length t = d -> Forall (fun a => (a < d)%nat) l ->
  (forall i, (i < length l)%nat -> nth (nth i l 0%nat) t 0%R = nth i v 0%R) -> (forall a, (a < d)%nat -> ~ In a l -> nth a t 0%R = 0%R) -> per_axis d l v = t.
Proof.
  intros D L T B H Z. apply (nth_ext _ _ 0%R 0%R); [rewrite per_axis_length; lia|]. rewrite per_axis_length. intros a Ha. rewrite nth_per_axis by exact Ha.
  destruct (in_dec Nat.eq_dec a l) as [I|I].
  - apply (In_nth _ _ 0%nat) in I as (i & Hi & <-). rewrite lookup_nth by assumption. symmetry. apply H, Hi.
  - rewrite Z by assumption. apply lookup_none. destruct (existsb _ _) eqn:E; [|reflexivity]. apply existsb_exists in E as (x & Hx & E). apply Nat.eqb_eq in E. subst. contradiction.
Qed.

(** roll, along the right-most axes, and along given axes. *)
Lemma roll_right s shift f : (length shift <= length s)%nat -> let t := repeat 0%R (length s - length shift) ++ shift in Forall2 resolved_shift s t ->
  exists g, roll s None shift f = Ok g /\ agree s g (moved s t f).
Proof.
  intros L t R. pose proof (roll_moved s None shift f _ shift (default_axes _ _ L)) as H. rewrite per_axis_right in H by exact L. apply H; [|exact R]. unfold assigned. rewrite seq_length, Nat.eqb_refl. reflexivity.
Qed.
Lemma roll_along s l shift f t : NoDup l -> length shift = length l -> Forall (fun a => (a < length s)%nat) l -> length t = length s ->
  (forall i, (i < length l)%nat -> nth (nth i l 0%nat) t 0%R = nth i shift 0%R) -> (forall a, (a < length s)%nat -> ~ In a l -> nth a t 0%R = 0%R) -> Forall2 resolved_shift s t ->
  exists g, roll s (Some (map Z.of_nat l)) shift f = Ok g /\ agree s g (moved s t f).
Proof.
  intros D L B T H Z R. pose proof (per_axis_unique (length s) l shift t D L T B H Z) as E. rewrite <- E in R |- *. apply roll_moved; [apply axis_numbers_nat, B| |exact R]. unfold assigned. rewrite L, Nat.eqb_refl. reflexivity.
Qed.
Lemma roll_too_many s shift f : (length s < length shift)%nat -> roll s None shift f = Err IndexError.
Proof. intros L. unfold roll. rewrite default_axes_none by exact L. reflexivity. Qed.
(** Small shifts, and those of a small fraction of a large array, are ignored. *)
Lemma roll_ignored n d f : (0 < n)%nat -> (Rabs d <= / 100000000 \/ Rabs (2 * PI * d / INR n) <= / 100000000)%R -> exists g, roll [n] None [d] f = Ok g /\ agree [n] g f.
Proof.
  intros N H. unfold roll. cbn [length chosen_axes seq map]. change (axis_numbers 1 [(Z.of_nat 0 - Z.of_nat 1)%Z]) with (Some [0%nat]). cbv iota beta. unfold roll_ft. cbn [chosen_axes length].
  change (axis_numbers 1 [(Z.of_nat 0 - Z.of_nat 1)%Z]) with (Some [0%nat]). change (mask 1 [0%nat]) with [true].
  assert (forall F, (forall q, F q = part_ft [true] [n] f q) -> agree [n] (part_ift [true] [n] F) f) as I.
  { intros F E p Hp. transitivity (moved [n] [0%R] f p); [|apply moved_zero; [reflexivity|repeat constructor|exact Hp]].
    rewrite <- (part_moved [n] [true] [0%R]) by (reflexivity || exact Hp || (constructor; [discriminate|constructor])).
    apply part_ift_ext; [reflexivity| |exact Hp]. intros q _. rewrite E, zero_angle, Ropp_0, cis_0 by (repeat constructor). ring. }
  cbn [forallb]. rewrite andb_true_r. destruct (near_zero d) eqn:E; cbn [rmap].
  - eexists. split; [reflexivity|]. apply I. reflexivity.
  - destruct H as [H|H]; [apply near_zero_true in H; congruence|]. cbn [bind assigned length Nat.eqb rmap]. eexists. split; [reflexivity|]. apply I. intros q. change (per_axis 1 [0%nat] [d]) with [d]. cbn [turn].
    destruct q as [|i q]; [ring|]. apply near_zero_true in H. rewrite H. cbn [turn]. ring.
Qed.
