(** Proofs about colour maps. *)
From Coq Require Import Reals Lra Lia List Arith ZArith Bool.
From Flocq Require Import Core.Core IEEE754.BinarySingleNaN.
Require Import Verif.Base Verif.Num Verif.Float_Model Verif.Float_Spec Verif.Float_Basics Verif.Bound64_Proofs Verif.Colormap_Model Verif.Colormap_Spec.
Import ListNotations.
Local Open Scope R_scope.

Lemma ok_eq {A} (x y : A) : Ok x = Ok y -> y = x.
Proof. congruence. Qed.
Lemma nth_map_seq {A} (h : nat -> A) n i d : (i < n)%nat -> nth i (map h (seq 0 n)) d = h i.
Proof. intros Hi. rewrite (nth_indep _ d (h 0%nat)) by (rewrite map_length, seq_length; exact Hi). rewrite map_nth, seq_nth by exact Hi. reflexivity. Qed.
Definition rowsof {N : num} (points c : list N) : list (row N) := map (fun xy => (fst xy, snd xy, snd xy)) (combine points c).
Lemma rows_xs {N : num} (p c : list N) : length p = length c -> xs N (rowsof p c) = p.
Proof. unfold xs, rowsof. rewrite map_map. cbn [fst]. revert c. induction p as [|x p IH]; intros [|y c] H; try discriminate; [reflexivity|]. cbn. f_equal. apply IH. injection H. auto. Qed.
Lemma rows_y {N : num} (p c : list N) i : length p = length c -> y0 N (rowsof p c) i = nth i c (nofZ N 0) /\ y1 N (rowsof p c) i = nth i c (nofZ N 0).
Proof.
  unfold y0, y1, rowsof. intros H. revert c i H. induction p as [|x p IH]; intros [|y c] i H; try discriminate; [destruct i; split; reflexivity|].
  destruct i as [|i]; [split; reflexivity|]. cbn. apply IH. injection H. auto.
Qed.
Lemma rows_length {N : num} (p c : list N) : length p = length c -> length (rowsof p c) = length p.
Proof. intros H. unfold rowsof. rewrite map_length, combine_length. lia. Qed.
Lemma stack_ok {N : num} (p c : list N) : length p = length c -> stack N p c = Ok (rowsof p c).
Proof. intros H. unfold stack. rewrite H, Nat.eqb_refl. reflexivity. Qed.
Lemma interpolated_ok {N : num} n m (f : nat -> nat -> N) points : (3 <= m)%nat -> match points with None => True | Some l => length l = n end ->
  let p := match points with None => default_points N n | Some l => l end in
  let ch k := rowsof p (map (fun i => f i k) (seq 0 n)) in
  interpolated N n m f points = Ok {| red := ch 0%nat; green := ch 1%nat; blue := ch 2%nat; alpha := if (3 <? m)%nat then Some (ch 3%nat) else None |}.
Proof.
  intros Hm Hl p ch. assert (length p = n) as Hp by (unfold p, default_points; destruct points; [exact Hl|rewrite map_length, seq_length; reflexivity]).
  unfold interpolated, column. fold p. rewrite !(proj2 (Nat.ltb_lt _ m)) by lia. cbn [bind].
  rewrite !stack_ok by (rewrite map_length, seq_length; exact Hp). cbn [bind]. destruct (3 <? m)%nat; [|reflexivity]. cbn [bind].
  rewrite stack_ok by (rewrite map_length, seq_length; exact Hp). reflexivity.
Qed.

(** ** Real numbers *)
Lemma clip_shown x : shown x (clip01 RN x).
Proof.
  unfold shown, clip01, nmin, nmax. destruct (nleb RN x (nofZ RN 0)) eqn:E1.
  - apply RN_nleb_true in E1. left. split; [exact E1|]. destruct (nleb RN (nofZ RN 0) (nofZ RN 1)) eqn:E2; [reflexivity|]. apply RN_nleb_false in E2. rn. lra.
  - apply RN_nleb_false in E1. rn. destruct (nleb RN x 1) eqn:E2.
    + apply RN_nleb_true in E2. right. left. split; [lra|reflexivity].
    + apply RN_nleb_false in E2. right. right. split; [lra|reflexivity].
Qed.
Lemma search_spec (l : list RN) v : let i := search RN l v in (forall k, (k < i)%nat -> nth k l (nofZ RN 0) < v) /\ ((i < length l)%nat -> v <= nth i l (nofZ RN 0)) /\ (i <= length l)%nat.
Proof.
  induction l as [|x l (IH1 & IH2 & IH3)]; cbn [search].
  - refine (conj _ (conj _ _)); intros; cbn in *; lia.
  - destruct (nltb x v) eqn:E.
    + apply RN_nltb_true in E. refine (conj _ (conj _ _)).
      * intros [|k] Hk; [exact E|]. cbn [nth]. apply IH1. lia.
      * cbn [length nth]. intros H. apply IH2. lia.
      * cbn [length]. lia.
    + apply RN_nltb_false in E. refine (conj _ (conj _ _)); [intros; lia|intros _; exact E|cbn; lia].
Qed.
Lemma last_nth {A} (l : list A) d d' : l <> [] -> last l d = nth (length l - 1) l d'.
Proof.
  induction l as [|x l IH]; intros H; [congruence|]. destruct l as [|y l]; [reflexivity|].
  change (last (x :: y :: l) d) with (last (y :: l) d). rewrite IH by discriminate.
  replace (length (x :: y :: l) - 1)%nat with (Datatypes.S (length (y :: l) - 1)) by (cbn; lia). reflexivity.
Qed.
Lemma check_real (p c : list RN) : length p = length c -> check RN (rowsof p c) = Ok tt ->
  (1 <= length p)%nat /\ nth 0 p (nofZ RN 0) = 0 /\ nth (length p - 1) p (nofZ RN 0) = 1.
Proof.
  intros Hl H. unfold check in H. rewrite (rows_xs p c Hl) in H. destruct p as [|x p]; [discriminate|].
  destruct (neqb RN x (nofZ RN 0)) eqn:E1; [|discriminate]. destruct (neqb RN (last (x :: p) x) (nofZ RN 1)) eqn:E2; [|discriminate].
  apply RN_neqb_true in E1, E2. refine (conj _ (conj E1 _)); [cbn; lia|].
  rewrite <- (last_nth (x :: p) x (nofZ RN 0)) by discriminate. exact E2.
Qed.
Lemma nth_mul (p : list RN) M i : nth i (map (fun x => nmul RN x M) p) (nofZ RN 0) = nth i p (nofZ RN 0) * M.
Proof. revert i. induction p as [|x p IH]; intros [|i]; cbn [map nth]; rn; try ring. apply IH. Qed.
Lemma table_channel n K (p c : list RN) j : (2 <= K)%nat -> (j < K)%nat -> length p = n -> length c = n -> check RN (rowsof p c) = Ok tt ->
  channel_at n (fun i => nth i p 0) (fun i => nth i c 0) K j (table RN K (rowsof p c) j).
Proof.
  intros HK Hj Hp Hc Hk. assert (length p = length c) as Hl by congruence. destruct (check_real p c Hl Hk) as (H1 & H0 & He). unfold table, channel_at.
  destruct (j =? 0)%nat eqn:E0; [apply Nat.eqb_eq in E0|apply Nat.eqb_neq in E0].
  { left. split; [exact E0|]. rewrite (proj2 (rows_y p c 0%nat Hl)). apply clip_shown. }
  destruct (j =? K - 1)%nat eqn:E1; [apply Nat.eqb_eq in E1|apply Nat.eqb_neq in E1].
  { right. left. split; [exact E1|]. rewrite (rows_length p c Hl), Hp, (proj1 (rows_y p c _ Hl)). apply clip_shown. }
  right. right. rewrite (rows_xs p c Hl). set (M := nofZ RN (Z.of_nat K - 1)). set (v := nofZ RN (Z.of_nat j)). set (q := map (fun x => nmul RN x M) p).
  assert (M = INR K - 1) as EM by (unfold M; rn; rewrite minus_IZR, <- INR_IZR_INZ; reflexivity). assert (v = INR j) as Ev by (unfold v; rn; rewrite <- INR_IZR_INZ; reflexivity).
  assert (0 < M) as PM by (rewrite EM; pose proof (le_INR 2 K HK) as B; cbn in B; lra).
  assert (forall i, nth i q (nofZ RN 0) = nth i p (nofZ RN 0) * M) as Eq.
  { intros i. unfold q. apply nth_mul. }
  destruct (search_spec q v) as (S1 & S2 & S3). set (i := search RN q v) in *. assert (length q = n) as Hq by (unfold q; rewrite map_length; exact Hp). rewrite Hq in S2, S3.
  assert (0 < i)%nat as Hi.
  { destruct (Nat.eq_dec i 0) as [E|E]; [|lia]. exfalso. assert (v <= nth 0 q (nofZ RN 0)) as B by (rewrite <- E at 1; apply S2; lia). rewrite Eq, H0 in B.
    pose proof (le_INR 1 j ltac:(lia)) as B1. cbn in B1. lra. }
  assert (i < n)%nat as Hi2.
  { destruct (Nat.eq_dec i n) as [E|E]; [|lia]. exfalso. assert (nth (n - 1) q (nofZ RN 0) < v) as B by (apply S1; lia). rewrite Eq, <- Hp, He, Ev, EM in B.
    assert (INR j <= INR (K - 1)) as B2 by (apply le_INR; lia). rewrite minus_INR in B2 by lia. cbn in B2. lra. }
  specialize (S1 (i - 1)%nat ltac:(lia)). specialize (S2 Hi2). rewrite Eq in S1, S2. exists (i - 1)%nat. replace (i - 1 + 1)%nat with i by lia.
  change (nth (i - 1) p (nofZ RN 0)) with (nth (i - 1) p 0) in *. change (nth i p (nofZ RN 0)) with (nth i p 0) in *.
  assert (nth (i - 1) p 0 < v / M) as L1 by (apply Rmult_lt_reg_r with M; [exact PM|]; unfold Rdiv; rewrite Rmult_assoc, Rinv_l, Rmult_1_r by lra; exact S1).
  assert (v / M <= nth i p 0) as L2 by (apply Rmult_le_reg_r with M; [exact PM|]; unfold Rdiv; rewrite Rmult_assoc, Rinv_l, Rmult_1_r by lra; exact S2).
  rewrite <- Ev, <- EM. refine (conj _ (conj _ (conj _ _))); [lia|lra|lra|].
  rewrite (proj1 (rows_y p c i Hl)), (proj2 (rows_y p c (i - 1)%nat Hl)). change (nofZ RN 0) with 0. rn.
  match goal with |- shown ?a (clip01 RN ?b) => assert (a = b) as -> by (field; lra) end. apply clip_shown.
Qed.

Lemma check_same {N : num} (p c c' : list N) : length p = length c -> length p = length c' -> check N (rowsof p c) = check N (rowsof p c').
Proof. intros H H'. unfold check. rewrite (rows_xs p c H), (rows_xs p c' H'). reflexivity. Qed.
(** All channels of a colour map that can be used. *)
Lemma colour_channels n m (f : nat -> nat -> RN) points K j r g b a : (3 <= m)%nat -> match points with None => True | Some l => length l = n end -> (2 <= K)%nat -> (j < K)%nat ->
  forall cm, interpolated RN n m f points = Ok cm -> colour RN K cm j = Ok (r, g, b, a) ->
  let p i := match points with None => INR i / (INR n - 1) | Some l => nth i l 0 end in
  channel_at n p (fun i => f i 0%nat) K j r /\ channel_at n p (fun i => f i 1%nat) K j g /\ channel_at n p (fun i => f i 2%nat) K j b /\
  if (3 <? m)%nat then channel_at n p (fun i => f i 3%nat) K j a else a = 1.
Proof.
  intros Hm Hl HK Hj cm Ei Ec p. rewrite (interpolated_ok n m f points Hm Hl) in Ei. apply ok_eq in Ei. subst cm.
  set (ps := match points with None => default_points RN n | Some l => l end) in *.
  assert (length ps = n) as Hp by (unfold ps, default_points; destruct points; [exact Hl|rewrite map_length, seq_length; reflexivity]).
  assert (forall k, length (map (fun i => f i k) (seq 0 n)) = n) as Hc by (intros k; rewrite map_length, seq_length; reflexivity).
  unfold colour in Ec. cbn [red green blue alpha] in Ec.
  destruct (check RN (rowsof ps (map (fun i => f i 0%nat) (seq 0 n)))) as [[]|] eqn:E0; [|discriminate]. cbn [bind] in Ec.
  assert (forall k, check RN (rowsof ps (map (fun i => f i k) (seq 0 n))) = Ok tt) as Ek.
  { intros k. rewrite <- E0. apply check_same; rewrite Hp, Hc; reflexivity. }
  rewrite !Ek in Ec. cbn [bind] in Ec.
  assert (forall k, channel_at n p (fun i => f i k) K j (table RN K (rowsof ps (map (fun i => f i k) (seq 0 n))) j)) as HT.
  { intros k. pose proof (table_channel n K ps (map (fun i => f i k) (seq 0 n)) j HK Hj Hp (Hc k) (Ek k)) as T.
    destruct (check_real _ _ (eq_trans Hp (eq_sym (Hc k))) (Ek k)) as (Hn & _). rewrite Hp in Hn.
    assert (forall i, (i < n)%nat -> nth i (map (fun i => f i k) (seq 0 n)) 0 = f i k) as Hcf.
    { intros i Hi. exact (nth_map_seq (fun i => f i k) n i 0 Hi). }
    assert (forall i, (i < n)%nat -> nth i ps 0 = p i) as Hpf.
    { intros i Hi. unfold p. unfold ps. destruct points as [l|]; [reflexivity|]. unfold default_points.
      etransitivity; [exact (nth_map_seq (fun i => ndiv RN (nofZ RN (Z.of_nat i)) (nofZ RN (Z.of_nat n - 1))) n i 0 Hi)|]. rn. rewrite minus_IZR, <- !INR_IZR_INZ. reflexivity. }
    destruct T as [(A & B)|[(A & B)|(i & A1 & A2 & A3 & A4)]].
    - left. split; [exact A|]. rewrite Hcf in B by lia. exact B.
    - right. left. split; [exact A|]. rewrite Hcf in B by lia. exact B.
    - right. right. exists i. rewrite !Hcf, !Hpf in * by lia. auto. }
  pose proof (HT 3%nat) as T3. destruct (3 <? m)%nat; cbn [bind] in Ec.
  - rewrite Ek in Ec. cbn [bind] in Ec. injection Ec as <- <- <- <-. auto.
  - injection Ec as <- <- <- <-. auto.
Qed.

(** ** Double precision *)
Definition point (n i : nat) : BN := ndiv BN (nofZ BN (Z.of_nat i)) (nofZ BN (Z.of_nat n - 1)).
Lemma point_val n i : (2 <= Z.of_nat n <= 2 ^ 53)%Z -> (i < n)%nat -> finite (point n i) /\ val (point n i) = rnd (INR i / (INR n - 1)) /\ 0 <= INR i / (INR n - 1) <= 1.
Proof.
  intros Hn Hi. destruct (ofZ_val (Z.of_nat i)) as (F1 & V1); [lia|]. destruct (ofZ_val (Z.of_nat n - 1)) as (F2 & V2); [lia|].
  rewrite minus_IZR, <- INR_IZR_INZ in V2. rewrite <- INR_IZR_INZ in V1.
  assert (1 <= INR n - 1) as Hp by (pose proof (le_INR 2 n ltac:(lia)) as B; cbn in B; lra).
  assert (INR i <= INR n - 1) as Hq by (pose proof (le_INR i (n - 1) ltac:(lia)) as B; rewrite minus_INR in B by lia; cbn in B; lra).
  pose proof (pos_INR i) as H0.
  assert (0 <= INR i / (INR n - 1) <= 1) as HB.
  { split; [apply Rmult_le_pos; [lra|left; apply Rinv_0_lt_compat; lra]|]. apply Rmult_le_reg_r with (INR n - 1); [lra|]. unfold Rdiv. rewrite Rmult_assoc, Rinv_l by lra. lra. }
  assert (finite (point n i)) as FP.
  { apply div_fin; [exact F1|rewrite V2; lra|]. rewrite V1, V2. apply Rle_lt_trans with (bpow radix2 0); [|apply bpow_lt; lia].
    apply rnd_abs_pow; [lia|]. cbn [bpow]. rewrite Rabs_pos_eq; lra. }
  refine (conj FP (conj _ HB)). destruct (div_val (nofZ BN (Z.of_nat i)) (nofZ BN (Z.of_nat n - 1))) as (_ & E); [rewrite V2; lra|exact FP|]. rewrite V1, V2 in E. exact E.
Qed.
Lemma decreases_spec (f : nat -> BN) k m : (forall i, (k <= i)%nat -> (i + 1 < k + m)%nat -> nltb (nsub BN (f (i + 1)%nat) (f i)) (nofZ BN 0) = false) -> decreases BN (map f (seq k m)) = false.
Proof.
  revert k. induction m as [|m IH]; intros k H; [reflexivity|]. destruct m as [|m]; [reflexivity|].
  change (nltb (nsub BN (f (Datatypes.S k)) (f k)) (nofZ BN 0) || decreases BN (map f (seq (Datatypes.S k) (Datatypes.S m))) = false).
  rewrite (IH (Datatypes.S k)) by (intros i A B; apply H; lia). rewrite orb_false_r. replace (Datatypes.S k) with (k + 1)%nat by lia. apply H; lia.
Qed.
Lemma default_usable n (c : list BN) : (2 <= Z.of_nat n <= 2 ^ 53)%Z -> length c = n -> check BN (rowsof (default_points BN n) c) = Ok tt.
Proof.
  intros Hn Hc. assert (length (default_points BN n) = n) as Hl by (unfold default_points; rewrite map_length, seq_length; reflexivity).
  unfold check. rewrite rows_xs by (rewrite Hl, Hc; reflexivity).
  assert (exists l, default_points BN n = point n 0 :: l) as (l & El).
  { unfold default_points. destruct n as [|n]; [lia|]. eexists. reflexivity. }
  assert (rnd (0 / (INR n - 1)) = 0) as R0 by (unfold Rdiv; rewrite Rmult_0_l; apply rnd_0).
  destruct (point_val n 0%nat Hn ltac:(lia)) as (F0 & V0 & _). change (INR 0) with 0 in V0. rewrite R0 in V0.
  assert (last (default_points BN n) (point n 0) = point n (n - 1)) as EL.
  { rewrite (last_nth _ _ (point n 0)) by (rewrite El; discriminate). rewrite Hl. unfold default_points. change (fun i : nat => ndiv BN (nofZ BN (Z.of_nat i)) (nofZ BN (Z.of_nat n - 1))) with (point n).
    rewrite (map_nth (point n) (seq 0 n) 0%nat (n - 1)), seq_nth by lia. reflexivity. }
  destruct (point_val n (n - 1)%nat Hn ltac:(lia)) as (F1 & V1 & _).
  assert (INR (n - 1) / (INR n - 1) = 1) as E1.
  { rewrite minus_INR by lia. change (INR 1) with 1. field. pose proof (le_INR 2 n ltac:(lia)) as B. cbn in B. lra. }
  rewrite E1 in V1. assert (rnd 1 = 1) as R1 by (apply rnd_fmt; apply (fmt_IZR 1); lia). rewrite R1 in V1.
  rewrite El at 1. rewrite EL.
  rewrite (proj2 (eqb_val _ _ F0 zero_fin)) by (rewrite V0, zero_val; reflexivity).
  rewrite (proj2 (eqb_val _ _ F1 one_fin)) by (rewrite V1, one_val; reflexivity). cbn [negb orb].
  assert (decreases BN (default_points BN n) = false) as ->; [|reflexivity].
  apply (decreases_spec (point n) 0 n). intros i _ Hi. destruct (point_val n i Hn ltac:(lia)) as (Fi & Vi & Bi). destruct (point_val n (i + 1)%nat Hn ltac:(lia)) as (Fj & Vj & Bj).
  assert (val (point n i) <= val (point n (i + 1))) as HV.
  { rewrite Vi, Vj. apply rnd_le. apply Rmult_le_compat_r; [|apply le_INR; lia]. left. apply Rinv_0_lt_compat. pose proof (le_INR 2 n ltac:(lia)) as B. cbn in B. lra. }
  assert (0 <= val (point n i)) as H0 by (rewrite Vi, <- rnd_0; apply rnd_le; apply Bi).
  assert (val (point n (i + 1)) <= 1) as H1 by (rewrite Vj; eapply Rle_trans; [apply rnd_le; apply Bj|lra]).
  assert (Rabs (rnd (val (point n (i + 1)) - val (point n i))) <= bpow radix2 0) as HR.
  { apply rnd_abs_pow; [lia|]. cbn [bpow]. apply Rabs_le. lra. }
  assert (finite (nsub BN (point n (i + 1)) (point n i))) as FS.
  { apply sub_fin; [exact Fj|exact Fi|]. eapply Rle_lt_trans; [exact HR|]. apply bpow_lt. lia. }
  destruct (sub_val _ _ FS) as (_ & _ & VS). destruct (nltb (nsub BN (point n (i + 1)) (point n i)) (nofZ BN 0)) eqn:EN; [|reflexivity].
  apply (ltb_val _ _ FS zero_fin) in EN. rewrite VS, zero_val in EN. assert (0 <= rnd (val (point n (i + 1)) - val (point n i))) by (rewrite <- rnd_0; apply rnd_le; lra). lra.
Qed.
Lemma colours_usable n m (f : nat -> nat -> BN) K j : (2 <= Z.of_nat n <= 2 ^ 53)%Z -> (3 <= m)%nat -> exists cm c, interpolated BN n m f None = Ok cm /\ colour BN K cm j = Ok c.
Proof.
  intros Hn Hm. pose proof (interpolated_ok n m f None Hm I) as Ei. cbv zeta in Ei.
  assert (forall k, check BN (rowsof (default_points BN n) (map (fun i => f i k) (seq 0 n))) = Ok tt) as Ek by (intros k; apply default_usable; [exact Hn|rewrite map_length, seq_length; reflexivity]).
  destruct (3 <? m)%nat; eexists; eexists; (split; [exact Ei|]); unfold colour; cbn [red green blue alpha]; rewrite !Ek; cbn [bind]; reflexivity.
Qed.
Lemma one_colour m (f : nat -> nat -> BN) K j : (3 <= m)%nat -> exists cm, interpolated BN 1 m f None = Ok cm /\ colour BN K cm j = Err ValueError.
Proof.
  intros Hm. eexists. split; [apply (interpolated_ok 1 m f None Hm I)|]. unfold colour. cbn [red].
  assert (check BN (rowsof (default_points BN 1) (map (fun i => f i 0%nat) (seq 0 1))) = Err ValueError) as ->; [|reflexivity].
  unfold check. rewrite rows_xs by reflexivity. cbn [default_points map seq]. assert (neqb BN (ndiv BN (nofZ BN (Z.of_nat 0)) (nofZ BN (Z.of_nat 1 - 1))) (nofZ BN 0) = false) as -> by (vm_compute; reflexivity). reflexivity.
Qed.
Lemma few_channels {N : num} n m (f : nat -> nat -> N) : (m < 3)%nat -> interpolated N n m f None = Err IndexError.
Proof.
  intros Hm. assert (length (default_points N n) = n) as Hp by (unfold default_points; rewrite map_length, seq_length; reflexivity).
  unfold interpolated, column. destruct m as [|[|[|m]]]; [reflexivity| | |lia]; cbn -[default_points seq]; rewrite !stack_ok by (rewrite map_length, seq_length; exact Hp); reflexivity.
Qed.
