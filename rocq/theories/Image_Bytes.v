(** Proofs about the conversion of unsigned 8-bit images, and the round trip of an image. *)
From Coq Require Import Reals Lra Lia ZArith ZifyBool List Bool Psatz.
From Flocq Require Import Core.Raux.
Require Import Verif.Base Verif.Num Verif.Display_Model Verif.Image_Model Verif.Image_Spec Verif.Image_Proofs.
Require Verif.Display_Proofs Verif.Display_Spec.
Import ListNotations.
Local Open Scope R_scope.

Lemma leb_IZR x y : nleb RN (IZR x) (IZR y) = (x <=? y)%Z.
Proof. destruct (Z.leb_spec x y) as [H|H]; [apply RN_nleb_true, IZR_le, H|apply RN_nleb_false, IZR_lt, H]. Qed.
Lemma ltb_IZR x y : @nltb RN (IZR x) (IZR y) = (x <? y)%Z.
Proof. destruct (Z.ltb_spec x y) as [H|H]; [apply RN_nltb_true, IZR_lt, H|apply RN_nltb_false, IZR_le, H]. Qed.
Lemma max_IZR x y : @nmax RN (IZR x) (IZR y) = IZR (Z.max x y).
Proof. unfold nmax. rewrite leb_IZR. destruct (Z.leb_spec x y); f_equal; lia. Qed.
Lemma min_IZR x y : @nmin RN (IZR x) (IZR y) = IZR (Z.min x y).
Proof. unfold nmin. rewrite leb_IZR. destruct (Z.leb_spec x y); f_equal; lia. Qed.
Lemma amax_IZR l : amax RN (map IZR l) = IZR (largest l).
Proof.
  destruct l as [|x l]; [reflexivity|]. cbn [map amax largest]. revert x. induction l as [|y l IH]; intros x; [reflexivity|]. cbn [map fold_left]. rewrite max_IZR. apply IH.
Qed.
Lemma amin_IZR l : amin RN (map IZR l) = IZR (least l).
Proof.
  destruct l as [|x l]; [reflexivity|]. cbn [map amin least]. revert x. induction l as [|y l IH]; intros x; [reflexivity|]. cbn [map fold_left]. rewrite min_IZR. apply IH.
Qed.
Lemma select_IZR k l idx : select_from RN k (map IZR l) idx = IZR (byte_from k l idx).
Proof.
  revert k. induction l as [|x l IH]; intros k; cbn [map select_from byte_from]; [reflexivity|]. rewrite IH. rn. rewrite plus_IZR, mult_IZR. f_equal. f_equal. unfold bit, z_of_bool. destruct (idx =? k)%Z; reflexivity.
Qed.
Lemma nth_IZR k l : nth k (map IZR l) 0 = IZR (nth k l 0%Z).
Proof. change 0 with (IZR 0). apply map_nth. Qed.
Lemma bit_IZR b : bit RN b = IZR (z_of_bool b).
Proof. destruct b; reflexivity. Qed.
Lemma isclose_zero x : (0 <= x)%Z -> isclose RN (IZR x) 0 = (x =? 0)%Z.
Proof.
  intros H. unfold isclose. destruct (Z.eqb_spec x 0) as [->|N0].
  - apply RN_nleb_true. rewrite !RN_nabs. rn. rewrite Rminus_0_r, Rabs_R0. lra.
  - apply RN_nleb_false. rewrite !RN_nabs. rn. rewrite Rminus_0_r, Rabs_R0, Rabs_pos_eq by (apply IZR_le; exact H). assert (1 <= IZR x) by (apply IZR_le; lia). lra.
Qed.
Lemma largest_least l : (forall x, In x l -> 0 <= x <= 255)%Z -> (0 <= least l <= largest l /\ largest l <= 255)%Z.
Proof.
  destruct l as [|x l]; [cbn; lia|]. cbn [largest least]. intros H.
  assert (forall l a b, (0 <= a <= b /\ b <= 255)%Z -> (forall x, In x l -> 0 <= x <= 255)%Z -> (0 <= fold_left Z.min l a <= fold_left Z.max l b /\ fold_left Z.max l b <= 255)%Z) as A.
  { clear. induction l as [|y l IH]; intros a b Hab H; [exact Hab|]. cbn [fold_left]. apply IH; [|intros x Hx; apply H; right; exact Hx]. specialize (H y (or_introl eq_refl)). lia. }
  apply A; [|intros y Hy; apply H; right; exact Hy]. specialize (H x (or_introl eq_refl)). lia.
Qed.
Lemma frac_shift x y : x - IZR (Zfloor x) = y - IZR (Zfloor y) <-> exists n : Z, y - x = IZR n.
Proof.
  split.
  - intros H. exists (Zfloor y - Zfloor x)%Z. rewrite minus_IZR. lra.
  - intros (n & H). assert (Zfloor y = Zfloor x + n)%Z as ->. { apply Zfloor_imp. rewrite !plus_IZR. pose proof (Zfloor_lb x). pose proof (Zfloor_ub x). simpl. lra. } rewrite plus_IZR. lra.
Qed.
Lemma mod_one x : @nmod RN x 1 = x - IZR (Zfloor x).
Proof. unfold nmod. rn. rewrite Rdiv_1_r || (replace (x / 1) with x by field). ring. Qed.
Lemma divides_256 q : (0 < q)%Z -> (exists n : Z, 256 / IZR q = IZR n) <-> (256 mod q = 0)%Z.
Proof.
  intros Hq. assert (0 < IZR q) by (apply IZR_lt; exact Hq). split.
  - intros (n & E). assert (IZR 256 = IZR (n * q)) as A by (rewrite mult_IZR, <- E; field; lra). apply eq_IZR in A. rewrite A. apply Z_mod_mult.
  - intros E. exists (256 / q)%Z. apply Z.div_exact in E; [|lia]. rewrite E at 1. rewrite mult_IZR. field. lra.
Qed.

Lemma pick0 r g b : byte_from 0 [r; g; b] 0 = r.
Proof. cbn. lia. Qed.
Lemma pick1 r g b : byte_from 0 [r; g; b] 1 = g.
Proof. cbn. lia. Qed.
Lemma pick2 r g b : byte_from 0 [r; g; b] 2 = b.
Proof. cbn. lia. Qed.
Lemma dominant_channel r g b : let ch := (z_of_bool ((nth 0 [r; g; b] 0 <? nth 1 [r; g; b] 0) && (nth 0 [r; g; b] 0 <=? nth 2 [r; g; b] 0)) + 2 * z_of_bool ((nth 1 [r; g; b] 0 <? nth 2 [r; g; b] 0) && (nth 1 [r; g; b] 0 <=? nth 0 [r; g; b] 0)))%Z in
  (ch = 0 /\ (g <= r \/ b < r) /\ (b <= g \/ r < g) \/ ch = 1 /\ r < g /\ r <= b \/ ch = 2 /\ g < b /\ g <= r)%Z.
Proof. cbn [nth]. cbv zeta. unfold z_of_bool. destruct (Z.ltb_spec r g), (Z.leb_spec r b), (Z.ltb_spec g b), (Z.leb_spec g r); cbn [andb]; lia. Qed.

Theorem bytes_hsv r g b : (0 <= r <= 255)%Z -> (0 <= g <= 255)%Z -> (0 <= b <= 255)%Z ->
  exists h h' s v, bytes2hsv RN [r; g; b] = (h', s, v) /\ stacked2hsv RN (map IZR [r; g; b]) = (h, s, v) /\
    (h' = h <-> (~ (increasing r g b) \/ (256 mod spread_of r g b = 0)%Z)).
Proof.
  intros Hr Hg Hb. unfold bytes2hsv, stacked2hsv, per_pixel_select. change (nofZ RN 0) with 0. rewrite amax_IZR, amin_IZR, !nth_IZR, !leb_IZR, !ltb_IZR, !select_IZR, leb_IZR, !bit_IZR.
  set (l := [r; g; b]). assert (forall x, In x l -> 0 <= x <= 255)%Z as Hl by (intros x [<-|[<-|[<-|[]]]]; assumption).
  destruct (largest_least l Hl) as (H1 & H2). set (mx := largest l) in *. set (mn := least l) in *. change (nofZ RN) with IZR.
  assert (sub8 mx mn = mx - mn)%Z as -> by (unfold sub8; apply Z.mod_small; lia).
  replace (nsub RN (IZR mx) (IZR mn)) with (IZR (mx - mn)) by (rewrite minus_IZR; reflexivity).
  rewrite !isclose_zero by lia. rewrite !(Z.mod_small (_ + z_of_bool _) 256) by (unfold z_of_bool; match goal with |- context[if ?c then _ else _] => destruct c eqn:? end; lia).
  set (ch := (z_of_bool _ + 2 * z_of_bool _)%Z). set (d := byte_from 0 l ch). set (a := byte_from 0 l ((ch + 1) mod 3)). set (bf := byte_from 0 l ((ch - 1) mod 3)).
  set (i := (2 * ch + _)%Z). rn. rewrite <- !plus_IZR. 
  do 4 eexists. split; [reflexivity|]. split; [reflexivity|]. rewrite !mod_one.
  assert (forall x y : R, (IZR i + x) / 6 = (IZR i + y) / 6 <-> y = x) as Hi by (intros; split; intros; lra). rewrite Hi, frac_shift. clear Hi.
  pose proof (dominant_channel r g b) as Dc. cbv zeta in Dc. match type of Dc with (?x = _ /\ _ \/ _)%Z => change x with ch in Dc end.
  assert ((d < a)%Z <-> increasing r g b) as Hd.
  { unfold d, a. destruct Dc as [(E & C)|[(E & C)|(E & C)]]; rewrite E.
    - change ((0 + 1) mod 3)%Z with 1%Z. unfold l. rewrite pick0, pick1. unfold increasing. lia.
    - change ((1 + 1) mod 3)%Z with 2%Z. unfold l. rewrite pick1, pick2. unfold increasing. lia.
    - change ((2 + 1) mod 3)%Z with 0%Z. unfold l. rewrite pick2, pick0. unfold increasing. lia. }
  assert (0 <= d <= 255 /\ 0 <= a <= 255)%Z as (Bd & Ba).
  { unfold d, a. destruct Dc as [(E & C)|[(E & C)|(E & C)]]; rewrite E.
    - change ((0 + 1) mod 3)%Z with 1%Z. unfold l. rewrite pick0, pick1. lia.
    - change ((1 + 1) mod 3)%Z with 2%Z. unfold l. rewrite pick1, pick2. lia.
    - change ((2 + 1) mod 3)%Z with 0%Z. unfold l. rewrite pick2, pick0. lia. }
  assert (mx - mn = spread_of r g b)%Z as Es by (unfold mx, mn, spread_of, l; cbn [largest least fold_left]; lia).
  destruct (Z_lt_dec d a) as [L|L].
  - assert (sub8 d a = d - a + 256)%Z as -> by (unfold sub8; symmetry; apply (Z.mod_unique_pos _ _ (-1)); lia).
    assert (0 < mx - mn)%Z as Q. { rewrite Es. apply Hd in L. unfold increasing, spread_of in *. lia. }
    replace (mx - mn =? 0)%Z with false by lia. cbn [z_of_bool]. rewrite Z.add_0_r. rewrite Es in *. rewrite <- divides_256 by exact Q. assert (0 < IZR (spread_of r g b)) by (apply IZR_lt; exact Q).
    split.
    + intros (n & E). right. exists n. rewrite <- E, plus_IZR, minus_IZR. field. lra.
    + intros [E|(n & E)]; [exfalso; apply E, Hd, L|]. exists n. rewrite <- E, plus_IZR, minus_IZR. field. lra.
  - assert (sub8 d a = d - a)%Z as -> by (unfold sub8; apply Z.mod_small; lia). split.
    + intros _. left. rewrite <- Hd. exact L.
    + intros _. exists 0%Z. rewrite minus_IZR. lra.
Qed.

(** A float image to RGB and back. *)
Theorem round_trip (a : image RN) before after axis : ishape a = before ++ 3%nat :: after -> stands_for (S (length (before ++ after))) axis (length before) ->
  exists rgb hsv, hsv2rgb_array RN a None None None axis = Ok rgb /\ rgb2hsv_array RN rgb None None None axis = Ok hsv /\ ishape rgb = ishape a /\ ishape hsv = ishape a /\
  forall i j, CSum.inside before i -> CSum.inside after j -> let h := iget a (i ++ 0%nat :: j) in let s := iget a (i ++ 1%nat :: j) in let v := iget a (i ++ 2%nat :: j) in
    0 <= h < 1 -> 0 <= s <= 1 -> 0 <= v -> 1 / 100000000 + 1 / 100000 * v < v * s ->
    iget hsv (i ++ 1%nat :: j) = s /\ iget hsv (i ++ 2%nat :: j) = v /\ (iget hsv (i ++ 0%nat :: j) = h <-> exists k : Z, 12 * h = IZR k).
Proof.
  intros Es Ha. destruct (hsv_image_pixels RN a 3 before after None axis Es (le_n 3) Ha ltac:(discriminate)) as (rgb & E1 & S1 & G1). change (3 <? 3)%nat with false in S1, G1. cbv iota in S1, G1.
  destruct (rgb_image_pixels RN rgb 3 before after None axis S1 (le_n 3) Ha ltac:(discriminate)) as (hsv & E2 & S2 & G2). cbv iota in S2.
  exists rgb, hsv. refine (conj E1 (conj E2 (conj _ (conj _ _)))); [congruence|congruence|]. intros i j Hi Hj. cbv zeta. intros Hh Hs Hv Ht.
  pose proof (G1 i j 0%nat Hi Hj ltac:(lia)) as R0. pose proof (G1 i j 1%nat Hi Hj ltac:(lia)) as R1. pose proof (G1 i j 2%nat Hi Hj ltac:(lia)) as R2.
  unfold hsv2rgb_image in R0, R1, R2. destruct (hsv2rgb RN (iget a (i ++ 0%nat :: j)) (iget a (i ++ 1%nat :: j)) (iget a (i ++ 2%nat :: j))) as [[r g] b] eqn:Ec. cbn [nth_error] in R0, R1, R2.
  injection R0 as R0. injection R1 as R1. injection R2 as R2.
  pose proof (G2 i j 0%nat Hi Hj ltac:(lia)) as H0. pose proof (G2 i j 1%nat Hi Hj ltac:(lia)) as H1. pose proof (G2 i j 2%nat Hi Hj ltac:(lia)) as H2. cbv beta in H0, H1, H2.
  assert (hsv_and (channels_at rgb 3 i j) (option_map (fun x : image RN => iget x (i ++ j)) None) = rgb2hsv RN r g b None) as Q.
  { unfold hsv_and, channels_at, rgb2hsv, rgb2hsv_image. cbn [seq map option_map]. rewrite <- R0, <- R1, <- R2. destruct (stacked2hsv RN [r; g; b]) as [[x y] z]. reflexivity. }
  rewrite Q in H0, H1, H2. pose proof (Display_Proofs.hsv_rgb_hsv _ _ _ Hh Hs Hv Ht r g b Ec) as P. pose proof P as P'. rewrite P in H0, H1, H2. cbn [nth_error] in H0, H1, H2. injection H0 as H0. injection H1 as H1. injection H2 as H2.
  refine (conj (eq_sym H1) (conj (eq_sym H2) _)). split.
  - intros E. destruct (Req_dec (12 * iget a (i ++ 0%nat :: j)) (IZR (Zfloor (12 * iget a (i ++ 0%nat :: j))))) as [D|D]; [exists (Zfloor (12 * iget a (i ++ 0%nat :: j))); exact D|]. exfalso.
    refine (Display_Proofs.hsv_rgb_hsv_wrong _ _ _ Hh Hs Hv Ht _ r g b _ _ _ Ec P' _).
    + intros k K. apply D. rewrite K, Zfloor_IZR. reflexivity.
    + rewrite H0. exact E.
  - intros (k & K). assert (iget a (i ++ 0%nat :: j) = IZR k / 12) as Ek by lra. assert (0 <= k < 12)%Z as Hk. { split; [apply le_IZR; lra|apply lt_IZR; lra]. }
    rewrite Ek in Ec. pose proof (Display_Proofs.hsv_rgb_hsv_twelfths k _ _ Hk Hs Hv Ht r g b Ec) as P2. rewrite P' in P2. injection P2 as P2. rewrite <- H0, P2. symmetry. exact Ek.
Qed.
