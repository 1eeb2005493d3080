(** Proofs about vectors and fields: superpositions of plane waves, detection, time reversal, empty space. *)
From Coq Require Import Reals List Arith Bool ZArith Lia Lra ZifyNat.
Require Import Verif.Base Verif.Cplx Verif.CSum Verif.Field Verif.Fourier_Model Verif.Fourier_Spec Verif.Fourier_Proofs Verif.Vec_Model Verif.Matrix_Model Verif.Modes_Model Verif.Modes_Spec Verif.Modes_Proofs Verif.Modes_Waves.
Import ListNotations.
Local Open Scope R_scope.
Local Open Scope C_scope.

(** ** Linearity of the polarization *)
Lemma polarize_scale o j w (z : C) c : polarize o j (fun p => w p * z) c = polarize o j w c * z.
Proof. unfold polarize. destruct (vectorial o); [|reflexivity]. cbn [csum]. destruct c; ring. Qed.
Lemma polarize_conj o j w c : polarize o j (fun p => Cconj (w p)) c = Cconj (polarize o j w c).
Proof.
  unfold polarize. destruct (vectorial o); [|reflexivity]. cbn [csum]. destruct c; rewrite ?Cconj_plus, ?Cconj_minus, ?Cconj_mult, ?Cconj_plus, ?Cconj_mult, ?Cconj_R; reflexivity.
Qed.
Lemma polarize_ext o j w w' c : (c < 3)%nat -> (forall p, (p < n_pol o)%nat -> w p = w' p) -> polarize o j w c = polarize o j w' c.
Proof.
  intros Hc H. unfold polarize, n_pol in *. destruct (vectorial o); [|apply H; lia]. cbn [csum]. rewrite (H 0%nat), (H 1%nat) by lia. destruct c as [|[|[|]]]; [reflexivity| | |lia]; rewrite H by lia; reflexivity.
Qed.
Lemma polarize_zero o j c : polarize o j (fun _ => 0) c = 0.
Proof. unfold polarize. destruct (vectorial o); [|reflexivity]. cbn [csum]. destruct c; ring. Qed.
Lemma unpolarize_scale o j e (z : C) p : unpolarize o j (fun c => e c * z) p = unpolarize o j e p * z.
Proof. unfold unpolarize. destruct (vectorial o); [|reflexivity]. cbn [csum]. ring. Qed.
Lemma unpolarize_ext o j e e' p : (p < n_pol o)%nat -> (forall c, (c < 3)%nat -> e c = e' c) -> unpolarize o j e p = unpolarize o j e' p.
Proof.
  intros Hp H. unfold unpolarize, n_pol in *. destruct (vectorial o); [|apply H; lia]. cbn [csum]. rewrite (H 0%nat), (H 1%nat), (H 2%nat) by lia. destruct p as [|[|]]; [| |lia]; rewrite H by lia; reflexivity.
Qed.

(** ** Elements *)
Lemma element_index o i : (0 < n_modes o)%nat -> (((i / (n_modes o * n_pol o)) * n_modes o + (i / n_pol o) mod n_modes o) * n_pol o + i mod n_pol o = i)%nat.
Proof.
  intros H. assert (0 < n_pol o)%nat as P by (unfold n_pol; destruct (vectorial o); lia).
  rewrite (Nat.mul_comm (n_modes o) (n_pol o)), <- Nat.div_div by lia. pose proof (Nat.div_mod i (n_pol o)). pose proof (Nat.div_mod (i / n_pol o) (n_modes o)). nia.
Qed.
Lemma side_of o side j p : (j < n_modes o)%nat -> (p < n_pol o)%nat -> (((side * n_modes o + j) * n_pol o + p) / (n_modes o * n_pol o) = side)%nat.
Proof. intros H P. symmetry. apply (Nat.div_unique _ _ _ (j * n_pol o + p)); nia. Qed.
Lemma mode_of o side j p : (j < n_modes o)%nat -> (p < n_pol o)%nat -> ((((side * n_modes o + j) * n_pol o + p) / n_pol o) mod n_modes o = j)%nat.
Proof.
  intros H P. rewrite <- (Nat.div_unique ((side * n_modes o + j) * n_pol o + p) (n_pol o) (side * n_modes o + j) p); [|lia|lia].
  rewrite Nat.add_comm, Nat.mod_add by lia. apply Nat.mod_small. exact H.
Qed.
Lemma pol_of o side j p : (p < n_pol o)%nat -> (((side * n_modes o + j) * n_pol o + p) mod n_pol o = p)%nat.
Proof. intros P. rewrite Nat.add_comm, Nat.mod_add by lia. apply Nat.mod_small. exact P. Qed.
Lemma element_only o v side side' j p : (j < n_modes o)%nat -> (p < n_pol o)%nat -> element o (only_side o side v) side' j p = if (side' =? side)%nat then element o v side' j p else 0.
Proof. intros H P. unfold element, only_side. rewrite side_of by assumption. reflexivity. Qed.

(** ** Negligible sides *)
Definition element_zero (o : optics) (v : vec) (side : nat) : Prop := forall j p, (j < n_modes o)%nat -> (p < n_pol o)%nat -> element o v side j p = 0.
Lemma significant_cases o v side : valid o -> significant o v side -> element_zero o v side \/ negligible o (amplitude o v side) = false.
Proof.
  intros V [H|(i & Hi & H)].
  - left. intros j p Hj Hp. unfold element. replace ((side * n_modes o + j) * n_pol o + p)%nat with (side * (n_modes o * n_pol o) + (j * n_pol o + p))%nat by lia. apply H. nia.
  - right. destruct (negligible o (amplitude o v side)) eqn:E; [exfalso|reflexivity]. unfold negligible in E. rewrite forallb_forall in E.
    assert (0 < n_pol o)%nat as P by (unfold n_pol; destruct (vectorial o); lia).
    assert (i / n_pol o < n_modes o)%nat as Hj by (apply Nat.div_lt_upper_bound; nia). assert (i mod n_pol o < n_pol o)%nat as Hp by (apply Nat.mod_upper_bound; lia).
    specialize (E (i / n_pol o)%nat ltac:(apply in_seq; split; [apply Nat.le_0_l|exact Hj])). rewrite forallb_forall in E. specialize (E (i mod n_pol o)%nat ltac:(apply in_seq; split; [apply Nat.le_0_l|exact Hp])).
    unfold Rleb in E. destruct (Rle_dec _ _) as [L|]; [|discriminate]. unfold amplitude, element in L.
    replace ((side * n_modes o + i / n_pol o) * n_pol o + i mod n_pol o)%nat with (side * (n_modes o * n_pol o) + i)%nat in L
      by (pose proof (Nat.div_mod i (n_pol o) ltac:(lia)) as DM; rewrite DM at 1; generalize (i / n_pol o)%nat (i mod n_pol o)%nat; intros; ring).
    destruct (cosine_axial o _ V Hj) as (_ & C2 & C3 & _). assert (0 < sqrt (cosine o (i / n_pol o)))%R as Q1 by (apply sqrt_lt_R0; lra).
    assert (sqrt (cosine o (i / n_pol o)) <= 1)%R as Q2 by (rewrite <- sqrt_1; apply sqrt_le_1_alt; lra).
    rewrite Cmod_div in L by (intros Z; apply RtoC_inj in Z; lra). rewrite Cmod_R, Rabs_pos_eq in L by lra.
    set (q := sqrt (cosine o (i / n_pol o))) in *. assert (Cmod (v (side * (n_modes o * n_pol o) + i)%nat) = Cmod (v (side * (n_modes o * n_pol o) + i)%nat) / q * q)%R as E2 by (field; lra).
    pose proof (Cmod_ge_0 (v (side * (n_modes o * n_pol o) + i)%nat)). assert (0 <= Cmod (v (side * (n_modes o * n_pol o) + i)%nat) / q)%R by (apply Rmult_le_pos; [lra|apply Rlt_le, Rinv_0_lt_compat; lra]). nra.
Qed.
Lemma negligible_zero o (a : nat -> nat -> C) : (forall j p, (j < n_modes o)%nat -> (p < n_pol o)%nat -> a j p = 0) -> negligible o a = true.
Proof.
  intros H. unfold negligible. apply forallb_forall. intros j Hj. apply in_seq in Hj. apply forallb_forall. intros p Hp. apply in_seq in Hp. rewrite H by lia. rewrite Cmod_0. unfold Rleb. destruct (Rle_dec _ _) as [|N]; [reflexivity|destruct N; lra].
Qed.
Lemma negligible_ext o a b : (forall j p, (j < n_modes o)%nat -> (p < n_pol o)%nat -> Cmod (a j p) = Cmod (b j p)) -> negligible o a = negligible o b.
Proof.
  intros H. unfold negligible.
  assert (forall l, (forall j, In j l -> (j < n_modes o)%nat) -> forallb (fun j => forallb (fun p => Rleb (Cmod (a j p)) (/ 100000000)) (seq 0 (n_pol o))) l = forallb (fun j => forallb (fun p => Rleb (Cmod (b j p)) (/ 100000000)) (seq 0 (n_pol o))) l) as K.
  { induction l as [|j l IH]; intros Hl; [reflexivity|]. cbn [forallb]. rewrite IH by (intros; apply Hl; right; assumption). f_equal.
    assert (forall l', (forall p, In p l' -> (p < n_pol o)%nat) -> forallb (fun p => Rleb (Cmod (a j p)) (/ 100000000)) l' = forallb (fun p => Rleb (Cmod (b j p)) (/ 100000000)) l') as K'.
    { induction l' as [|p l' IH']; intros Hl'; [reflexivity|]. cbn [forallb]. rewrite IH' by (intros; apply Hl'; right; assumption). rewrite H; [reflexivity|apply Hl; left; reflexivity|apply Hl'; left; reflexivity]. }
    apply K'. intros p Hp. apply in_seq in Hp. lia. }
  apply K. intros j Hj. apply in_seq in Hj. lia.
Qed.
Lemma amplitude_zero o v side : element_zero o v side -> forall j p, (j < n_modes o)%nat -> (p < n_pol o)%nat -> amplitude o v side j p = 0.
Proof. intros H j p Hj Hp. unfold amplitude. rewrite H by assumption. unfold Cdiv. ring. Qed.
Lemma spread_ext o amp amp' x r : (forall j, (j < n_modes o)%nat -> amp j = amp' j) -> spread o amp x r = spread o amp' x r.
Proof. intros H. rewrite !spread_sum. apply csum_ext. intros j Hj. rewrite H by exact Hj. reflexivity. Qed.
Lemma side_field_ext o v v' side c q : (c < 3)%nat -> (forall j p, (j < n_modes o)%nat -> (p < n_pol o)%nat -> element o v side j p = element o v' side j p) -> side_field o v side c q = side_field o v' side c q.
Proof.
  intros Hc H. assert (forall j p, (j < n_modes o)%nat -> (p < n_pol o)%nat -> amplitude o v side j p = amplitude o v' side j p) as A by (intros; unfold amplitude; rewrite H by assumption; reflexivity).
  unfold side_field. rewrite (negligible_ext o (amplitude o v side) (amplitude o v' side)) by (intros; rewrite A by assumption; reflexivity).
  destruct (negligible o (amplitude o v' side)); [reflexivity|]. destruct q as [|x r]; [reflexivity|].
  destruct (side =? 0)%nat; [|f_equal]; apply spread_ext; intros j Hj; apply polarize_ext; [exact Hc| |exact Hc|]; intros p Hp; rewrite ?A by assumption; reflexivity.
Qed.
Lemma side_field_zero o v side c q : element_zero o v side -> side_field o v side c q = 0.
Proof. intros H. unfold side_field. rewrite (negligible_zero o (amplitude o v side)) by (apply amplitude_zero; exact H). reflexivity. Qed.
Lemma freespace_only o v side c q : (side < 2)%nat -> (c < 3)%nat -> srcvec2freespace o (only_side o side v) c q = side_field o v side c q.
Proof.
  intros Hs Hc. unfold srcvec2freespace. assert (forall side', side' <> side -> element_zero o (only_side o side v) side') as Z.
  { intros side' N j p Hj Hp. rewrite element_only by assumption. destruct (Nat.eqb_spec side' side); [contradiction|reflexivity]. }
  assert (side_field o (only_side o side v) side c q = side_field o v side c q) as K.
  { apply side_field_ext; [exact Hc|]. intros j p Hj Hp. rewrite element_only by assumption. rewrite Nat.eqb_refl. reflexivity. }
  destruct side as [|[|]]; [| |lia].
  - rewrite K, (side_field_zero o _ 1) by (apply Z; lia). ring.
  - rewrite K, (side_field_zero o _ 0) by (apply Z; lia). ring.
Qed.

(** ** Plane waves *)
Definition side_waves (o : optics) (v : vec) (side c x : nat) (r : list nat) : C :=
  csum (n_modes o) (fun j => polarize o j (fun p => element o v side j p) c / RtoC (sqrt (k_axial o (mode o j) / wavenumber o)) *
    cis (if (side =? 0)%nat then k_dot_r o (mode o j) x r else (- k_dot_r o (mode o j) x r)%R)).
Lemma side_waves_zero o v side c x r : (c < 3)%nat -> element_zero o v side -> side_waves o v side c x r = 0.
Proof.
  intros Hc H. unfold side_waves. rewrite (csum_ext _ _ (fun _ => 0)); [apply csum_zero|]. intros j Hj. rewrite (polarize_ext o j _ (fun _ => 0)) by (try exact Hc; intros p Hp; apply H; assumption).
  rewrite polarize_zero. unfold Cdiv. ring.
Qed.
Lemma side_field_waves o v side c x r : valid o -> sampled o -> (c < 3)%nat -> significant o v side -> inside (shape_of o) r ->
  side_field o v side c (x :: r) = side_waves o v side c x r.
Proof.
  intros V N Hc Sg Hr. destruct (significant_cases o v side V Sg) as [Z|Z].
  - rewrite side_field_zero by exact Z. symmetry. apply side_waves_zero; assumption.
  - unfold side_field. rewrite Z.
    assert (forall j, (j < n_modes o)%nat -> forall w : nat -> C, polarize o j (fun p => w p / RtoC (sqrt (cosine o j))) c = polarize o j w c / RtoC (sqrt (k_axial o (mode o j) / wavenumber o))) as A.
    { intros j Hj w. unfold Cdiv. rewrite polarize_scale. destruct (cosine_axial o j V Hj) as (-> & _). reflexivity. }
    unfold side_waves. destruct (side =? 0)%nat.
    + rewrite spread_sum. apply csum_ext. intros j Hj. rewrite <- (mode_phase o j V Hj x r N Hr). change (amplitude o v side j) with (fun p => element o v side j p / RtoC (sqrt (cosine o j))). rewrite (A j Hj (element o v side j)). change (fun p => element o v side j p) with (element o v side j). unfold Cdiv. ring.
    + rewrite spread_sum, csum_conj. apply csum_ext. intros j Hj. rewrite (cis_neg (k_dot_r o (mode o j) x r)), <- (mode_phase o j V Hj x r N Hr). rewrite !Cconj_mult, polarize_conj, Cconj_conj.
      change (amplitude o v side j) with (fun p => element o v side j p / RtoC (sqrt (cosine o j))). rewrite (A j Hj (element o v side j)). change (fun p => element o v side j p) with (element o v side j). unfold Cdiv. ring.
Qed.
Lemma waves_sides o v c x r : waves o v c x r = side_waves o v 0 c x r + side_waves o v 1 c x r.
Proof. reflexivity. Qed.
Lemma freespace_waves o v c x r : valid o -> sampled o -> significant o v 0 -> significant o v 1 -> (c < 3)%nat -> inside (shape_of o) r ->
  srcvec2freespace o v c (x :: r) = waves o v c x r.
Proof. intros V N S0 S1 Hc Hr. unfold srcvec2freespace. rewrite waves_sides, !side_field_waves by assumption. reflexivity. Qed.

(** ** Detection *)
Lemma cis_cancel x : cis x * cis (- x) = 1.
Proof. rewrite <- cis_plus, Rplus_opp_r. apply cis_0. Qed.
Lemma detected_side o (E : vfield) v side j p : valid o -> significant o v side -> (j < n_modes o)%nat -> (p < n_pol o)%nat ->
  (forall c r, (c < 3)%nat -> inside (shape_of o) r -> E c (plane o side :: r) = side_field o v side c (plane o side :: r)) ->
  detected o E side j p = element o v side j p.
Proof.
  intros V Sg Hj Hp HE. pose proof (modes_inside o _ (rmode_in o j Hj)) as Hi. unfold detected. set (x := plane o side) in *.
  destruct (cosine_axial o j V Hj) as (_ & C2 & _). assert (0 < sqrt (cosine o j))%R as Q by (apply sqrt_lt_R0; lra). assert (RtoC (sqrt (cosine o j)) <> 0) as Q' by (intros Z; apply RtoC_inj in Z; lra).
  destruct (significant_cases o v side V Sg) as [Z|Z].
  - rewrite Z by assumption. rewrite (unpolarize_ext o j _ (fun c => 0 * 0)); [|exact Hp|].
    + rewrite (unpolarize_scale o j (fun _ => 0) 0). destruct (side =? 0)%nat; [ring|]. rewrite ?Cconj_mult, ?Cconj_R. ring.
    + intros c Hc. rewrite (ift_ext _ _ (fun _ => 0 * 0)); [rewrite ift_scal; ring|]. intros r Hr. rewrite (HE c r Hc Hr), side_field_zero by exact Z. destruct (side =? 0)%nat; rewrite ?Cconj_R; ring.
  - unfold side_field in HE. rewrite Z in HE.
    set (a := amplitude o v side) in *. set (w := cis (origin_phase o j) * cis (wavenumber o * cosine o j * xpos o x)).
    assert (unpolarize o j (fun c => ift (shape_of o) (fun r => if (side =? 0)%nat then E c (x :: r) else Cconj (E c (x :: r))) (rmode o j)) p = (if (side =? 0)%nat then a j p else Cconj (a j p)) * w) as K.
    { rewrite (unpolarize_ext o j _ (fun c => polarize o j (if (side =? 0)%nat then a j else fun p => Cconj (a j p)) c * w)); [|exact Hp|].
      - rewrite unpolarize_scale, unpolarize_polarize by assumption. destruct (side =? 0)%nat; reflexivity.
      - intros c Hc. destruct (side =? 0)%nat.
        + rewrite (ift_ext _ _ (spread o (fun j => polarize o j (a j) c) x)) by (intros r Hr; apply HE; assumption). rewrite spread_detected by exact Hj. unfold w. ring.
        + rewrite (ift_ext _ _ (spread o (fun j => polarize o j (fun p => Cconj (a j p)) c) x)) by (intros r Hr; rewrite (HE c r Hc Hr), Cconj_conj; reflexivity).
          rewrite spread_detected by exact Hj. unfold w. ring. }
    rewrite K. assert (forall z, z * w * cis (- origin_phase o j) * cis (- (wavenumber o * cosine o j * xpos o x)) * RtoC (sqrt (cosine o j)) = z * RtoC (sqrt (cosine o j))) as L.
    { intros z. transitivity (z * RtoC (sqrt (cosine o j)) * (cis (origin_phase o j) * cis (- origin_phase o j)) * (cis (wavenumber o * cosine o j * xpos o x) * cis (- (wavenumber o * cosine o j * xpos o x)))); [unfold w; ring|rewrite !cis_cancel; ring]. }
    rewrite L. unfold a, amplitude. destruct (side =? 0)%nat.
    + field. exact Q'.
    + rewrite Cconj_mult, Cconj_R, Cconj_conj. field. exact Q'.
Qed.
Lemma vector_roundtrip o v (E : vfield) i : valid o -> significant o v 0 -> significant o v 1 -> (i < n_elements o)%nat ->
  (forall c r, (c < 3)%nat -> inside (shape_of o) r -> E c (back_detector o :: r) = srcvec2freespace o (only_side o 0 v) c (back_detector o :: r)) ->
  (forall c r, (c < 3)%nat -> inside (shape_of o) r -> E c (front_detector o :: r) = srcvec2freespace o (only_side o 1 v) c (front_detector o :: r)) ->
  detfield2detvec o E i = v i.
Proof.
  intros V S0 S1 Hi HB HF. unfold n_elements in Hi. assert (0 < n_modes o)%nat as M by nia. assert (0 < n_pol o)%nat as P by (unfold n_pol; destruct (vectorial o); lia).
  unfold detfield2detvec. set (side := (i / (n_modes o * n_pol o))%nat). assert (side < 2)%nat as Hs by (apply Nat.div_lt_upper_bound; nia).
  assert ((i / n_pol o) mod n_modes o < n_modes o)%nat by (apply Nat.mod_upper_bound; lia). assert (i mod n_pol o < n_pol o)%nat by (apply Nat.mod_upper_bound; lia).
  rewrite (detected_side o E v side); try assumption.
  - unfold element, side. rewrite element_index by exact M. reflexivity.
  - destruct side as [|[|]]; [exact S0|exact S1|lia].
  - intros c r Hc Hr. destruct side as [|[|]]; [| |lia]; unfold plane; cbn [Nat.eqb].
    + rewrite HB by assumption. apply freespace_only; [lia|exact Hc].
    + rewrite HF by assumption. apply freespace_only; [lia|exact Hc].
Qed.

(** ** Empty space *)
Lemma empty_space o solve v i : valid o -> sampled o -> significant o v 0 -> significant o v 1 -> front_detector o <> back_detector o ->
  (forall x c r, x = front_detector o \/ x = back_detector o -> (c < 3)%nat -> inside (shape_of o) r -> solve v c (x :: r) = waves o v c x r) ->
  (i < n_elements o)%nat -> scatter o solve v i = v i.
Proof.
  intros V N S0 S1 D H Hi. unfold scatter. apply vector_roundtrip; try assumption.
  - intros c r Hc Hr. unfold outward. cbn [hd]. unfold plane. cbn [Nat.eqb]. rewrite Nat.eqb_refl. destruct (Nat.eqb_spec (back_detector o) (front_detector o)) as [E|_]; [congruence|].
    rewrite H by auto. rewrite !freespace_only by (try exact Hc; lia). change (1 - 0)%nat with 1%nat. rewrite waves_sides, <- (side_field_waves o v 1) by assumption. rewrite (side_field_waves o v 0) by assumption. ring.
  - intros c r Hc Hr. unfold outward. cbn [hd]. unfold plane. cbn [Nat.eqb]. rewrite Nat.eqb_refl. destruct (Nat.eqb_spec (front_detector o) (back_detector o)) as [E|_]; [congruence|].
    rewrite H by auto. rewrite !freespace_only by (try exact Hc; lia). change (1 - 1)%nat with 0%nat. rewrite waves_sides, <- (side_field_waves o v 0) by assumption. rewrite (side_field_waves o v 1) by assumption. ring.
Qed.

(** ** Time reversal *)
Lemma reverse_twice o v i : (i < n_elements o)%nat -> detvec2srcvec o (detvec2srcvec o v) i = v i.
Proof.
  intros H. unfold detvec2srcvec, n_elements in *. set (h := (n_modes o * n_pol o)%nat) in *. rewrite Cconj_conj. f_equal.
  destruct (Nat.ltb_spec i h); destruct (Nat.ltb_spec (i + h) h), (Nat.ltb_spec (i - h) h); lia.
Qed.
Lemma reverse_element o v side j p : (side < 2)%nat -> (j < n_modes o)%nat -> (p < n_pol o)%nat -> element o (detvec2srcvec o v) side j p = Cconj (element o v (1 - side) j p).
Proof.
  intros Hs Hj Hp. unfold element, detvec2srcvec. f_equal. f_equal. destruct side as [|[|]]; [| |lia].
  - destruct (Nat.ltb_spec ((0 * n_modes o + j) * n_pol o + p) (n_modes o * n_pol o)); nia.
  - destruct (Nat.ltb_spec ((1 * n_modes o + j) * n_pol o + p) (n_modes o * n_pol o)); nia.
Qed.
Lemma reverse_field o v c q : (c < 3)%nat -> srcvec2freespace o (detvec2srcvec o v) c q = Cconj (srcvec2freespace o v c q).
Proof.
  intros Hc. unfold srcvec2freespace. rewrite Cconj_plus.
  assert (forall side, (side < 2)%nat -> side_field o (detvec2srcvec o v) side c q = Cconj (side_field o v (1 - side) c q)) as K; [|rewrite !K by lia; change (1 - 0)%nat with 1%nat; change (1 - 1)%nat with 0%nat; ring].
  intros side Hs. unfold side_field.
  assert (forall j p, (j < n_modes o)%nat -> (p < n_pol o)%nat -> amplitude o (detvec2srcvec o v) side j p = Cconj (amplitude o v (1 - side) j p)) as A.
  { intros j p Hj Hp. unfold amplitude. rewrite reverse_element by assumption. rewrite Cconj_div, Cconj_R. reflexivity. }
  rewrite (negligible_ext o (amplitude o (detvec2srcvec o v) side) (amplitude o v (1 - side))) by (intros; rewrite A by assumption; apply Cmod_conj).
  destruct (negligible o (amplitude o v (1 - side))); [symmetry; apply Cconj_R|]. destruct q as [|x r]; [symmetry; apply Cconj_R|].
  destruct side as [|[|]]; [| |lia]; cbn [Nat.sub Nat.eqb].
  - rewrite Cconj_conj. apply spread_ext. intros j Hj. apply polarize_ext; [exact Hc|]. intros p Hp. apply A; assumption.
  - f_equal. apply spread_ext. intros j Hj. apply polarize_ext; [exact Hc|]. intros p Hp. rewrite A by assumption. apply Cconj_conj.
Qed.
