(** Sub-pixel roll: C44, C96 (real arrays). *)
From Coq Require Import Reals List Arith Bool ZArith Lia Lra.
Require Import Verif.Base Verif.CSum Verif.Field Verif.Fourier_Model Verif.Fourier_Spec Verif.Fourier_Proofs Verif.Vec_Model Verif.Modes_Model Verif.Modes_Proofs.
Require Import Verif.Shift_Model Verif.Shift_Spec Verif.Shift_Proofs Verif.Shift_Moves Verif.Cplx.
Import ListNotations.
Local Open Scope R_scope.
Local Open Scope C_scope.

(** ** C44 *)
(** roll translates the trigonometric interpolation of the samples, along the right-most axes by default, ... *)
Theorem roll_translates : forall s shift f, (length shift <= length s)%nat -> Forall2 resolved_shift s (on_right s shift) ->
  exists g, roll s None shift f = Ok g /\ agree s g (moved s (on_right s shift) f).
Proof. exact roll_right. Qed.
Print Assumptions roll_translates.
(** ... or along the axes that are given. *)
Theorem roll_translates_axes : forall s l shift f t, NoDup l -> length shift = length l -> Forall (fun a => (a < length s)%nat) l -> length t = length s ->
  (forall i, (i < length l)%nat -> nth (nth i l 0%nat) t 0%R = nth i shift 0%R) -> (forall a, (a < length s)%nat -> ~ In a l -> nth a t 0%R = 0%R) -> Forall2 resolved_shift s t ->
  exists g, roll s (Some (map Z.of_nat l)) shift f = Ok g /\ agree s g (moved s t f).
Proof. exact roll_along. Qed.
Print Assumptions roll_translates_axes.
Lemma on_right_full s (shift : list R) : length shift = length s -> on_right s shift = shift.
Proof. intros L. unfold on_right. rewrite L, Nat.sub_diag. reflexivity. Qed.
Lemma on_right_length s (shift : list R) : (length shift <= length s)%nat -> length (on_right s shift) = length s.
Proof. intros L. unfold on_right. rewrite app_length, repeat_length. lia. Qed.
(** Integer shifts are cyclic. *)
Theorem roll_integer : forall s (d : list Z) f, length d = length s -> Forall2 resolved_shift s (map IZR d) ->
  exists g, roll s None (map IZR d) f = Ok g /\ agree s g (cyclic s d f).
Proof.
  intros s d f L R. assert (length (map IZR d) = length s) as L' by (rewrite map_length; exact L). destruct (roll_right s (map IZR d) f) as (g & G & A); [lia|fold (on_right s (map IZR d)); rewrite on_right_full by exact L'; exact R|].
  exists g. split; [exact G|]. intros p Hp. rewrite (A p Hp). fold (on_right s (map IZR d)). rewrite on_right_full by exact L'. apply moved_cyclic; assumption.
Qed.
Print Assumptions roll_integer.
(** Two rolls in succession are one by the sum. *)
Theorem roll_sum : forall s a b f, length a = length s -> length b = length s -> Forall2 resolved_shift s a -> Forall2 resolved_shift s b -> Forall2 resolved_shift s (both b a) ->
  exists g h k, roll s None a f = Ok g /\ roll s None b g = Ok h /\ roll s None (both b a) f = Ok k /\ agree s h k.
Proof.
  intros s a b f La Lb Ra Rb Rs. assert (length (both b a) = length s) as Ls by (rewrite both_length; congruence).
  destruct (roll_right s a f) as (g & G & A); [lia|fold (on_right s a); rewrite on_right_full; assumption|]. destruct (roll_right s b g) as (h & H & B); [lia|fold (on_right s b); rewrite on_right_full; assumption|].
  destruct (roll_right s (both b a) f) as (k & K & D); [lia|fold (on_right s (both b a)); rewrite on_right_full; assumption|].
  fold (on_right s a) in A. fold (on_right s b) in B. fold (on_right s (both b a)) in D. rewrite on_right_full in A, B, D by assumption.
  exists g, h, k. repeat split; try assumption. intros p Hp. rewrite (B p Hp), (D p Hp). rewrite (moved_ext s b _ _ p A). apply moved_moved; assumption.
Qed.
Print Assumptions roll_sum.
(** Rolling back restores the array. *)
Theorem roll_inverse : forall s a f, length a = length s -> Forall2 resolved_shift s a -> Forall2 resolved_shift s (back a) ->
  exists g h, roll s None a f = Ok g /\ roll s None (back a) g = Ok h /\ agree s h f.
Proof.
  intros s a f L R R'. assert (length (back a) = length s) as L' by (rewrite back_length; exact L).
  destruct (roll_right s a f) as (g & G & A); [lia|fold (on_right s a); rewrite on_right_full; assumption|]. destruct (roll_right s (back a) g) as (h & H & B); [lia|fold (on_right s (back a)); rewrite on_right_full; assumption|].
  fold (on_right s a) in A. fold (on_right s (back a)) in B. rewrite on_right_full in A, B by assumption.
  exists g, h. repeat split; try assumption. intros p Hp. rewrite (B p Hp), (moved_ext s (back a) _ _ p A). apply moved_back; assumption.
Qed.
Print Assumptions roll_inverse.
(** The norm remains the same. *)
Theorem roll_norm : forall s a f, nonempty s -> (length a <= length s)%nat -> Forall2 resolved_shift s (on_right s a) -> exists g, roll s None a f = Ok g /\ norm2 s g = norm2 s f.
Proof. intros s a f S L R. destruct (roll_right s a f L R) as (g & G & A). exists g. split; [exact G|]. rewrite (norm2_ext s _ _ A). apply moved_norm2; [exact S|apply on_right_length, L]. Qed.
Print Assumptions roll_norm.
(** Plane waves that the grid can represent have the phase of the translated position. *)
Theorem roll_plane_wave : forall s k a, length a = length s -> represented s k -> Forall2 resolved_shift s a ->
  exists g, roll s None a (fun p => cis (plane_angle s k (at_index p))) = Ok g /\ agree s g (fun p => cis (plane_angle s k (behind p a))).
Proof.
  intros s k a L K R. destruct (roll_right s a (fun p => cis (plane_angle s k (at_index p)))) as (g & G & A); [lia|fold (on_right s a); rewrite on_right_full; assumption|]. fold (on_right s a) in A. rewrite on_right_full in A by exact L.
  exists g. split; [exact G|]. intros p Hp. rewrite (A p Hp). apply moved_plane; assumption.
Qed.
Print Assumptions roll_plane_wave.
(** Rolling is linear. *)
Theorem roll_linear : forall s a x y f h, (length a <= length s)%nat -> Forall2 resolved_shift s (on_right s a) ->
  exists g gf gh, roll s None a (fun p => x * f p + y * h p) = Ok g /\ roll s None a f = Ok gf /\ roll s None a h = Ok gh /\ agree s g (fun p => x * gf p + y * gh p).
Proof.
  intros s a x y f h L R. destruct (roll_right s a (fun p => x * f p + y * h p) L R) as (g & G & A). destruct (roll_right s a f L R) as (g1 & G1 & A1). destruct (roll_right s a h L R) as (g2 & G2 & A2).
  exists g, g1, g2. repeat split; try assumption. intros p Hp. rewrite (A p Hp), (A1 p Hp), (A2 p Hp). rewrite moved_plus, !moved_scal. reflexivity.
Qed.
Print Assumptions roll_linear.
Theorem roll_too_many_shifts : forall s shift f, (length s < length shift)%nat -> roll s None shift f = Err IndexError.
Proof. exact roll_too_many. Qed.
Print Assumptions roll_too_many_shifts.
Lemma resolved_12 d n : (d = 1 \/ d = 1 / 2)%R -> (0 < n <= 3)%nat -> resolved_shift n d.
Proof.
  intros D N. right. assert (1 / 2 <= d <= 1)%R as B by lra. rewrite !Rabs_pos_eq; [|apply Rmult_le_pos; [pose proof PI_RGT_0; nra|left; apply Rinv_0_lt_compat; apply lt_0_INR; lia]|lra]. split; [lra|].
  assert (0 < INR n <= 3)%R as M by (split; [apply lt_0_INR; lia|replace 3%R with (INR 3) by (cbn; lra); apply le_INR; lia]). pose proof PI2_1 as P. unfold PI2 in P. apply (Rmult_lt_reg_r (INR n)); [lra|]. unfold Rdiv. rewrite Rmult_assoc, Rinv_l by lra. nra.
Qed.
(** The documentation says that the left-most axes are the default. The rows of this array remain where they are. *)
Theorem roll_default_axes_refuted : exists g, roll [2; 2]%nat None [1%R] (fun p => match p with [0; _]%nat => RtoC 1 | _ => RtoC 0 end) = Ok g /\
  ~ agree [2; 2]%nat g (moved [2; 2]%nat (on_left [2; 2]%nat [1%R]) (fun p => match p with [0; _]%nat => RtoC 1 | _ => RtoC 0 end)).
Proof.
  set (f := fun p : list nat => match p with [0; _]%nat => RtoC 1 | _ => RtoC 0 end). destruct (roll_right [2; 2]%nat [1%R] f) as (g & G & A); [cbn; lia|constructor; [left; reflexivity|constructor; [apply resolved_12; [left; reflexivity|lia]|constructor]]|].
  exists g. split; [exact G|]. intros B. assert (inside [2; 2]%nat [0; 0]%nat) as I by (repeat constructor). pose proof (A _ I) as E. rewrite (B _ I) in E.
  change (moved [2; 2]%nat (map IZR [1; 0]%Z) f [0; 0]%nat = moved [2; 2]%nat (map IZR [0; 1]%Z) f [0; 0]%nat) in E. rewrite !moved_cyclic in E by (reflexivity || exact I). unfold cyclic, f in E. cbn in E. apply RtoC_inj in E. lra.
Qed.
Print Assumptions roll_default_axes_refuted.
(** Shifts are ignored when they, or the phase step, count as zero: ... *)
Theorem roll_ignores_small_refuted : forall n d f, (0 < n)%nat -> (Rabs d <= / 100000000 \/ Rabs (2 * PI * d / INR n) <= / 100000000)%R -> exists g, roll [n] None [d] f = Ok g /\ agree [n] g f.
Proof. exact roll_ignored. Qed.
Print Assumptions roll_ignores_small_refuted.
(** ... so an array with more than 2 pi 1e8 values is not rolled by a single position. *)
Theorem roll_long_array_refuted : forall n, (2 * PI * 100000000 <= INR n)%R -> exists f g, roll [n] None [1%R] f = Ok g /\ g [0]%nat <> cyclic [n] [1%Z] f [0]%nat.
Proof.
  intros n N. assert (1 < n)%nat as N1. { apply INR_lt. pose proof PI2_1 as P. unfold PI2 in P. cbn. lra. }
  exists (fun p => match p with [0]%nat => RtoC 1 | _ => RtoC 0 end). assert (0 < INR n)%R as P by (apply lt_0_INR; lia).
  destruct (roll_ignored n 1 (fun p => match p with [0]%nat => RtoC 1 | _ => RtoC 0 end)) as (g & G & A); [lia|right|].
  - rewrite Rmult_1_r. pose proof PI_RGT_0. rewrite Rabs_pos_eq by (apply Rmult_le_pos; [lra|left; apply Rinv_0_lt_compat, P]). apply (Rmult_le_reg_r (INR n)); [exact P|]. unfold Rdiv. rewrite !Rmult_assoc, Rinv_l by lra. lra.
  - exists g. split; [exact G|]. rewrite (A [0]%nat) by (repeat constructor; lia). unfold cyclic. cbn [wrapped]. replace (Z.to_nat ((Z.of_nat 0 - 1) mod Z.of_nat n)) with (n - 1)%nat.
    + destruct (n - 1)%nat eqn:E; [lia|]. intros H. apply RtoC_inj in H. lra.
    + change (Z.of_nat 0 - 1)%Z with (- (1))%Z. rewrite Z.mod_opp_l_nz, Z.mod_1_l by (rewrite ?Z.mod_1_l; lia). lia.
Qed.
Print Assumptions roll_long_array_refuted.
Example roll_long_array_case : exists n, (2 * PI * 100000000 <= INR n)%R.
Proof. destruct (archimed (2 * PI * 100000000)) as [A _]. pose proof PI_RGT_0. exists (Z.to_nat (up (2 * PI * 100000000))). rewrite INR_IZR_INZ, Z2Nat.id; [lra|]. apply le_IZR. lra. Qed.
Ltac rs := unfold on_right; cbn [length Nat.sub repeat app map]; repeat match goal with |- Forall2 resolved_shift _ _ => first [apply Forall2_nil | apply Forall2_cons] | |- resolved_shift _ _ => first [left; reflexivity | apply resolved_12; [auto|lia]] end.
(** A case for the theorems above: half a position to the right, and back. *)
Example roll_case : Forall2 resolved_shift [2; 3]%nat [1%R; (1 / 2)%R] /\ Forall2 resolved_shift [2; 3]%nat (on_right [2; 3]%nat [(1 / 2)%R]) /\ represented [2; 3]%nat [-1; 1]%Z /\ Forall2 resolved_shift [2; 3]%nat (map IZR [1; 0]%Z).
Proof. split; [rs|]. split; [rs|]. split; [repeat constructor; lia|rs]. Qed.

(** ** C96 *)
(** Real arrays of odd size remain real, ... *)
Theorem roll_real_partial : forall s shift f, Forall (fun n => Nat.odd n = true) s -> (length shift <= length s)%nat -> Forall2 resolved_shift s (on_right s shift) ->
  (forall p, inside s p -> snd (f p) = 0%R) -> exists g, roll s None shift f = Ok g /\ forall p, inside s p -> snd (g p) = 0%R.
Proof.
  intros s shift f O L R F. destruct (roll_right s shift f L R) as (g & G & A). exists g. split; [exact G|]. intros p Hp. rewrite (A p Hp). apply moved_real; [exact O|apply on_right_length, L|exact F|exact Hp].
Qed.
Print Assumptions roll_real_partial.
Example roll_real_case : Forall (fun n => Nat.odd n = true) [1; 3]%nat /\ Forall2 resolved_shift [1; 3]%nat (on_right [1; 3]%nat [(1 / 2)%R]).
Proof. split; [repeat constructor|rs]. Qed.
(** ... integer shifts keep any array real, ... *)
Theorem roll_integer_real : forall s (d : list Z) f, length d = length s -> Forall2 resolved_shift s (map IZR d) -> (forall p, inside s p -> snd (f p) = 0%R) ->
  exists g, roll s None (map IZR d) f = Ok g /\ forall p, inside s p -> snd (g p) = 0%R.
Proof.
  intros s d f L R F. destruct (roll_integer s d f L R) as (g & G & A). exists g. split; [exact G|]. intros p Hp. rewrite (A p Hp). apply F. clear -Hp L. revert d L. induction Hp as [|n i s p Hi Hp IH]; intros [|z d] L; try discriminate; cbn [wrapped]; constructor.
  - pose proof (Z.mod_pos_bound (Z.of_nat i - z) (Z.of_nat n) ltac:(lia)). lia.
  - apply IH. injection L; auto.
Qed.
Print Assumptions roll_integer_real.
(** ... but not in general: the result for [1, -1] is imaginary. *)
Theorem roll_real_refuted : exists g, roll [2]%nat None [(1 / 2)%R] (fun p => match p with [0]%nat => RtoC 1 | _ => RtoC (- 1) end) = Ok g /\ g [0]%nat = Ci /\ g [1]%nat = - Ci.
Proof.
  set (f := fun p : list nat => match p with [0]%nat => RtoC 1 | _ => RtoC (- 1) end).
  destruct (roll_right [2]%nat [(1 / 2)%R] f) as (h & H & B); [cbn; lia|constructor; [apply resolved_12; [right; reflexivity|lia]|constructor]|]. exists h. split; [exact H|].
  assert (agree [2]%nat f (fun p => cis (plane_angle [2]%nat [-1]%Z (at_index p)))) as F.
  { intros p Hp. inversion Hp as [|? i ? p' Hi Hp']; subst. inversion Hp'; subst. destruct i as [|[|i]]; [| |lia]; cbn [f at_index map plane_angle].
    - replace (2 * PI * IZR (-1) * INR 0 / INR 2 + 0)%R with 0%R by (cbn; field). rewrite cis_0. reflexivity.
    - replace (2 * PI * IZR (-1) * INR 1 / INR 2 + 0)%R with (- PI)%R by (cbn; field). unfold cis. rewrite cos_neg, sin_neg, cos_PI, sin_PI. apply C_eq; cbn; lra. }
  assert (forall p, inside [2]%nat p -> h p = cis (plane_angle [2]%nat [-1]%Z (behind p [(1 / 2)%R]))) as E.
  { intros p Hp. rewrite (B p Hp). rewrite (moved_ext _ _ _ _ p F). apply moved_plane; [reflexivity|repeat constructor; lia|exact Hp]. }
  rewrite !E by (repeat constructor). cbn [behind plane_angle]. split.
  - replace (2 * PI * IZR (-1) * (INR 0 - 1 / 2) / INR 2 + 0)%R with (PI / 2)%R by (cbn; field). unfold cis. rewrite cos_PI2, sin_PI2. apply C_eq; reflexivity.
  - replace (2 * PI * IZR (-1) * (INR 1 - 1 / 2) / INR 2 + 0)%R with (- (PI / 2))%R by (cbn; field). unfold cis. rewrite cos_neg, sin_neg, cos_PI2, sin_PI2. apply C_eq; cbn; lra.
Qed.
Print Assumptions roll_real_refuted.
