From Coq Require Import Reals Lra Lia ZArith ZifyBool List Bool Psatz.
From Flocq Require Import Core.Raux.
From Coquelicot Require Import Rcomplements.
From Verif Require Import Base Num Grid_Model Grid_Spec Display_Model Display_Spec.
Import ListNotations.
Local Open Scope R_scope.
Ltac Zify.zify_post_hook ::= Z.div_mod_to_equations.

Ltac simple_arg a := lazymatch a with context[Rle_dec _ _] => fail | _ => idtac end.
Ltac minmax := repeat match goal with |- context[Rle_dec ?a ?b] => simple_arg a; simple_arg b; destruct (Rle_dec a b) end.

(** * hsv2rgb *)
Lemma int8_floor (x : R) : 0 <= x < 128 -> int8 RN x = Zfloor x.
Proof.
  intros H. unfold int8. rewrite RN_ntrunc, Ztrunc_floor by apply H.
  assert (0 <= Zfloor x)%Z by (apply Zfloor_lub; apply H).
  assert (Zfloor x < 128)%Z by (apply lt_IZR; eapply Rle_lt_trans; [apply Zfloor_lb|apply H]). lia.
Qed.
Definition clampk (k : R) := Rmax 0 (Rmin (Rmin k (4 - k)) 1).
Lemma clampk_value m f : 0 <= f < 1 -> (0 <= m < 6)%Z ->
  clampk (IZR m + f) = if (m =? 0)%Z then f else if (m <=? 2)%Z then 1 else if (m =? 3)%Z then 1 - f else 0.
Proof.
  intros Hf Hm. assert (m = 0 \/ m = 1 \/ m = 2 \/ m = 3 \/ m = 4 \/ m = 5)%Z as [->|[->|[->|[->|[->| ->]]]]] by lia;
  cbv [Z.eqb Z.leb Pos.eqb Z.compare Pos.compare Pos.compare_cont]; unfold clampk, Rmax, Rmin;
  minmax; lra.
Qed.
Lemma floor_frac x : 0 <= x - IZR (Zfloor x) < 1.
Proof. pose proof (Zfloor_lb x). pose proof (Zfloor_ub x). lra. Qed.
Lemma hsv_channel_index n h s v : (0 <= n < 6)%Z ->
  hsv_channel (IZR n) h s v = v - v * s * clampk (IZR ((n + Zfloor (6 * h)) mod 6) + (6 * h - IZR (Zfloor (6 * h)))).
Proof.
  intros Hn. unfold hsv_channel. fold (clampk (IZR n + 6 * h - 6 * IZR (Zfloor ((IZR n + 6 * h) / 6)))).
  set (x := 6 * h). pose proof (floor_frac x). set (i := Zfloor x) in *.
  assert (Zfloor ((IZR n + x) / 6) = ((n + i) / 6)%Z) as ->.
  { apply Zfloor_imp. assert (n + i = 6 * ((n + i) / 6) + (n + i) mod 6)%Z as E by lia.
    assert (0 <= (n + i) mod 6 < 6)%Z as B by lia.
    set (q := ((n + i) / 6)%Z) in *. set (r := ((n + i) mod 6)%Z) in *. apply (f_equal IZR) in E.
    rewrite !plus_IZR, mult_IZR in E. assert (0 <= IZR r <= 5) by (split; apply IZR_le; lia). rewrite plus_IZR. lra. }
  do 3 f_equal. assert (n + i = 6 * ((n + i) / 6) + (n + i) mod 6)%Z as E by lia. apply (f_equal IZR) in E.
  rewrite !plus_IZR, mult_IZR in E. lra.
Qed.
Theorem hsv2rgb_formula h s v : 0 <= 6 * h < 128 -> hsv2rgb RN h s v = hsv_colour h s v.
Proof.
  intros H. unfold hsv_colour.
  rewrite !hsv_channel_index by lia. unfold hsv2rgb.
  change (nmul RN (nofZ RN 6) h) with (6 * h). rewrite (int8_floor (6 * h)) by assumption.
  pose proof (floor_frac (6 * h)) as F. change (nsub RN (6 * h) (nofZ RN (Zfloor (6 * h)))) with (6 * h - IZR (Zfloor (6 * h))).
  set (f := 6 * h - IZR (Zfloor (6 * h))) in *. set (i := Zfloor (6 * h)) in *.
  rewrite !clampk_value by (try assumption; lia).
  assert ((5 + i) mod 6 = (i mod 6 + 5) mod 6)%Z as -> by lia.
  assert ((3 + i) mod 6 = (i mod 6 + 3) mod 6)%Z as -> by lia.
  assert ((1 + i) mod 6 = (i mod 6 + 1) mod 6)%Z as -> by lia.
  assert (0 <= i mod 6 < 6)%Z as B by lia. set (m := (i mod 6)%Z) in *. clearbody m f.
  assert (m = 0 \/ m = 1 \/ m = 2 \/ m = 3 \/ m = 4 \/ m = 5)%Z as [->|[->|[->|[->|[->| ->]]]]] by lia; clear;
  cbn -[Rmult Rplus Rminus]; (apply f_equal2; [apply f_equal2|]); rring.
Qed.

Lemma clampk_range k : 0 <= clampk k <= 1.
Proof. unfold clampk, Rmax, Rmin. minmax; lra. Qed.
Lemma hsv_channel_range n h s v : 0 <= s <= 1 -> 0 <= v -> v * (1 - s) <= hsv_channel n h s v <= v.
Proof.
  intros Hs Hv. unfold hsv_channel. fold (clampk (n + 6 * h - 6 * IZR (Zfloor ((n + 6 * h) / 6)))).
  set (c := clampk _). pose proof (clampk_range (n + 6 * h - 6 * IZR (Zfloor ((n + 6 * h) / 6)))) as C. fold c in C. clearbody c. assert (0 <= v * s) by nra. split; nra.
Qed.
Theorem hsv_max_min h s v : 0 <= s <= 1 -> 0 <= v ->
  max3 (hsv_channel 5 h s v) (hsv_channel 3 h s v) (hsv_channel 1 h s v) = v /\
  min3 (hsv_channel 5 h s v) (hsv_channel 3 h s v) (hsv_channel 1 h s v) = v * (1 - s).
Proof.
  intros Hs Hv. pose proof (hsv_channel_range 5 h s v Hs Hv). pose proof (hsv_channel_range 3 h s v Hs Hv). pose proof (hsv_channel_range 1 h s v Hs Hv).
  assert ((hsv_channel 5 h s v = v \/ hsv_channel 3 h s v = v \/ hsv_channel 1 h s v = v) /\
          (hsv_channel 5 h s v = v * (1 - s) \/ hsv_channel 3 h s v = v * (1 - s) \/ hsv_channel 1 h s v = v * (1 - s))) as [A B].
  {     rewrite !hsv_channel_index by lia. pose proof (floor_frac (6 * h)) as F.
    set (f := 6 * h - IZR (Zfloor (6 * h))) in *. set (i := Zfloor (6 * h)) in *.
    rewrite !clampk_value by (try assumption; lia).
    assert ((5 + i) mod 6 = (i mod 6 + 5) mod 6)%Z as -> by lia.
    assert ((3 + i) mod 6 = (i mod 6 + 3) mod 6)%Z as -> by lia.
    assert ((1 + i) mod 6 = (i mod 6 + 1) mod 6)%Z as -> by lia.
    assert (0 <= i mod 6 < 6)%Z as M by lia. set (m := (i mod 6)%Z) in *. clearbody m f.
    assert (m = 0 \/ m = 1 \/ m = 2 \/ m = 3 \/ m = 4 \/ m = 5)%Z as [->|[->|[->|[->|[->| ->]]]]] by lia; clear;
    cbn -[Rmult Rplus Rminus]; split; first [left; ring | right; left; ring | right; right; ring]. }
  unfold max3, min3, Rmax, Rmin. split; minmax; lra.
Qed.
Lemma hsv_channel_periodic n h s v : hsv_channel n (h + 1) s v = hsv_channel n h s v.
Proof.
  unfold hsv_channel. cbv zeta.
  assert (IZR (Zfloor ((n + 6 * (h + 1)) / 6)) = IZR (Zfloor ((n + 6 * h) / 6)) + 1) as ->.
  - rewrite <- plus_IZR. f_equal. apply Zfloor_imp. replace ((n + 6 * (h + 1)) / 6) with ((n + 6 * h) / 6 + 1) by field.
    pose proof (Zfloor_lb ((n + 6 * h) / 6)). pose proof (Zfloor_ub ((n + 6 * h) / 6)). rewrite !plus_IZR. lra.
  - replace (n + 6 * (h + 1) - 6 * (IZR (Zfloor ((n + 6 * h) / 6)) + 1)) with (n + 6 * h - 6 * IZR (Zfloor ((n + 6 * h) / 6))) by ring.
    reflexivity.
Qed.

(** * rgb2hsv *)
Definition tiny : R := / 100000000.
Lemma isclose_R (a b : R) : isclose RN a b = if Rle_dec (Rabs (a - b)) (1 / 100000000 + 1 / 100000 * Rabs b) then true else false.
Proof. unfold isclose. rewrite !RN_nabs. reflexivity. Qed.
Lemma not_close_0 (a : R) : tiny < a -> isclose RN a 0 = false.
Proof. intros H. rewrite isclose_R, Rabs_R0, Rminus_0_r. unfold tiny in H. rewrite Rabs_pos_eq by lra. destruct (Rle_dec _ _); [lra|reflexivity]. Qed.
Lemma nmod1 (x : R) (q : Z) : 0 <= x - IZR q < 1 -> nmod (N := RN) x 1 = x - IZR q.
Proof.
  intros H. unfold nmod. rn. replace (x / 1) with x by field. rewrite (Zfloor_imp q) by (rewrite plus_IZR; lra). ring.
Qed.
Lemma ltb_t (a b : R) : a < b -> nltb (N := RN) a b = true. Proof. apply RN_nltb_true. Qed.
Lemma ltb_f (a b : R) : b <= a -> nltb (N := RN) a b = false. Proof. apply RN_nltb_false. Qed.
Lemma leb_t (a b : R) : a <= b -> nleb RN a b = true. Proof. apply RN_nleb_true. Qed.
Lemma leb_f (a b : R) : b < a -> nleb RN a b = false. Proof. apply RN_nleb_false. Qed.
(** Decide the comparisons in the goal by linear arithmetic. *)
Ltac decide_comparisons := repeat match goal with
  | |- context[@nltb RN ?a ?b] => first [rewrite (ltb_t a b) by lra | rewrite (ltb_f a b) by lra]
  | |- context[nleb RN ?a ?b] => first [rewrite (leb_t a b) by lra | rewrite (leb_f a b) by lra]
  end.
(** The colour with lowest channel [lo], chroma [D] and intermediate offset [P] in a sextant. *)
Definition colour6 (m : Z) (lo D P : R) : list R :=
  if (m =? 0)%Z then [lo + D; lo + P; lo] else if (m =? 1)%Z then [lo + D - P; lo + D; lo]
  else if (m =? 2)%Z then [lo; lo + D; lo + P] else if (m =? 3)%Z then [lo; lo + D - P; lo + D]
  else if (m =? 4)%Z then [lo + P; lo; lo + D] else [lo + D; lo; lo + D - P].
Definition reflect (f : R) : R := if Req_EM_T f 0 then 0 else 1 - f.

Lemma RN_nmax (x y : R) : nmax (N := RN) x y = Rmax x y.
Proof. unfold nmax, Rmax. cbn. destruct (Rle_dec x y); reflexivity. Qed.
Lemma RN_nmin (x y : R) : nmin (N := RN) x y = Rmin x y.
Proof. unfold nmin, Rmin. cbn. destruct (Rle_dec x y); reflexivity. Qed.
Lemma amax3 (r g b : R) : amax RN [r; g; b] = max3 r g b.
Proof. unfold amax, max3. cbn [fold_left]. rewrite !RN_nmax. reflexivity. Qed.
Lemma amin3 (r g b : R) : amin RN [r; g; b] = min3 r g b.
Proof. unfold amin, min3. cbn [fold_left]. rewrite !RN_nmin. reflexivity. Qed.
Lemma stacked_v (r g b : R) : snd (stacked2hsv RN [r; g; b]) = max3 r g b.
Proof. unfold stacked2hsv. cbv zeta. cbn [snd]. apply amax3. Qed.
Lemma stacked_s (r g b : R) : snd (fst (stacked2hsv RN [r; g; b])) = (max3 r g b - min3 r g b) / (max3 r g b + bit RN (isclose RN (max3 r g b) 0)).
Proof. unfold stacked2hsv. cbv zeta. cbn [snd fst]. rewrite amax3, amin3. reflexivity. Qed.

Lemma sel0 (a b c : R) : per_pixel_select RN [a; b; c] 0 = a. Proof. cbn. ring. Qed.
Lemma sel1 (a b c : R) : per_pixel_select RN [a; b; c] 1 = b. Proof. cbn. ring. Qed.
Lemma sel2 (a b c : R) : per_pixel_select RN [a; b; c] 2 = c. Proof. cbn. ring. Qed.
Lemma stacked_hue m lo D P : (0 <= m < 6)%Z -> tiny < D -> 0 <= P < D -> 1 / 100000000 + 1 / 100000 * Rabs lo < D ->
  fst (fst (stacked2hsv RN (colour6 m lo D P))) = (IZR m + reflect (P / D)) / 6.
Proof.
  intros Hm HD HP HC. assert (0 < D) as D0 by (unfold tiny in HD; lra).
  assert (0 <= P / D < 1) as F.
  { split; [apply Rdiv_le_0_compat; lra|]. apply Rmult_lt_reg_r with D; [lra|]. unfold Rdiv. rewrite Rmult_assoc, Rinv_l by lra. lra. }
  assert (nmod (N := RN) ((D - P) / D) 1 = reflect (P / D)) as Me.
  { unfold reflect. replace ((D - P) / D) with (1 - P / D) by (field; lra). destruct (Req_EM_T (P / D) 0) as [E|E].
    - rewrite (nmod1 _ 1); rewrite E; simpl; lra.
    - rewrite (nmod1 _ 0); lra. }
  assert (nmod (N := RN) (- P / D) 1 = reflect (P / D)) as Mo.
  { unfold reflect. replace (- P / D) with (- (P / D)) by (field; lra). destruct (Req_EM_T (P / D) 0) as [E|E].
    - rewrite (nmod1 _ 0); rewrite E; simpl; lra.
    - rewrite (nmod1 _ (-1)); lra. }
  assert (isclose RN (lo + D) lo = false) as C.
  { rewrite isclose_R. replace (lo + D - lo) with D by ring. rewrite Rabs_pos_eq by lra. destruct (Rle_dec _ _); [lra|reflexivity]. }
  assert (nadd RN D (bit RN (isclose RN D (nofZ RN 0))) = D) as B.
  { change (nofZ RN 0) with 0. rewrite not_close_0 by assumption. unfold bit. rn. ring. }
  assert (m = 0 \/ m = 1 \/ m = 2 \/ m = 3 \/ m = 4 \/ m = 5)%Z as [->|[->|[->|[->|[->| ->]]]]] by lia; unfold colour6;
  cbn [Z.eqb Pos.eqb]; unfold stacked2hsv; cbn [nth fst snd]; decide_comparisons; rewrite ?andb_false_r, ?andb_true_r; cbn [andb];
  match goal with |- context[nsub RN (amax RN ?l) (amin RN ?l)] =>
    assert (nsub RN (amax RN l) (amin RN l) = D) as -> by
      (rewrite amax3, amin3; unfold max3, min3, Rmax, Rmin; rn; minmax; lra) end;
  rewrite B;
  repeat match goal with |- context[per_pixel_select RN ?l ?k] =>
    let k' := eval vm_compute in k in progress change (per_pixel_select RN l k) with (per_pixel_select RN l k') end;
  rewrite ?sel0, ?sel1, ?sel2; decide_comparisons; rewrite ?C;
  match goal with |- context[nsub RN ?a ?b] =>
    first [replace (nsub RN a b) with (D - P) by (rn; ring); change (ndiv RN (D - P) D) with ((D - P) / D)
          |replace (nsub RN a b) with (- P) by (rn; ring); change (ndiv RN (- P) D) with (- P / D)] end;
  change (nofZ RN 1) with 1; rewrite ?Me, ?Mo; unfold z_of_bool; rn; apply (f_equal (fun x => (x + reflect (P / D)) / 6)); apply (f_equal IZR);
  try reflexivity; destruct (isclose RN _ _); reflexivity.
Qed.

(** * Round trip *)
Lemma hsv_colour6 h s v : let i := Zfloor (6 * h) in let f := 6 * h - IZR i in
  [hsv_channel 5 h s v; hsv_channel 3 h s v; hsv_channel 1 h s v] = colour6 (i mod 6) (v * (1 - s)) (v * s) (v * s * f).
Proof.
  intros i f. rewrite !hsv_channel_index by lia. pose proof (floor_frac (6 * h)) as F. fold i f in F |- *.
  rewrite !clampk_value by (try assumption; lia).
  assert ((5 + i) mod 6 = (i mod 6 + 5) mod 6)%Z as -> by lia.
  assert ((3 + i) mod 6 = (i mod 6 + 3) mod 6)%Z as -> by lia.
  assert ((1 + i) mod 6 = (i mod 6 + 1) mod 6)%Z as -> by lia.
  assert (0 <= i mod 6 < 6)%Z as M by lia. set (m := (i mod 6)%Z) in *. clearbody m f.
  assert (m = 0 \/ m = 1 \/ m = 2 \/ m = 3 \/ m = 4 \/ m = 5)%Z as [->|[->|[->|[->|[->| ->]]]]] by lia; clear;
  unfold colour6; cbn -[Rmult Rplus Rminus]; repeat (apply f_equal2; [ring|]); reflexivity.
Qed.
Theorem hsv_rgb_hsv h s v : 0 <= h < 1 -> 0 <= s <= 1 -> 0 <= v -> 1 / 100000000 + 1 / 100000 * v < v * s ->
  forall r g b, hsv2rgb RN h s v = (r, g, b) ->
  rgb2hsv RN r g b None = [(IZR (sextant h) + reflect (within_sextant h)) / 6; s; v].
Proof.
  intros Hh Hs V0 Hv r g b E.
  assert (0 < v * s) as VS by lra. assert (0 < v) as V by nra.
  rewrite hsv2rgb_formula in E by lra. unfold hsv_colour in E. injection E as Er Eg Eb.
  assert (0 <= Zfloor (6 * h) < 6)%Z as B.
  { split; [apply Zfloor_lub; simpl; lra|]. apply lt_IZR. eapply Rle_lt_trans; [apply Zfloor_lb|]. lra. }
  pose proof (floor_frac (6 * h)) as F.
  destruct (hsv_max_min h s v Hs ltac:(lra)) as [Mx Mn].
  pose proof (hsv_colour6 h s v) as C6. cbv zeta in C6. rewrite Z.mod_small in C6 by assumption.
  rewrite Er, Eg, Eb in *. unfold rgb2hsv.
  rewrite (surjective_pairing (stacked2hsv RN [r; g; b])), (surjective_pairing (fst (stacked2hsv RN [r; g; b]))).
  rewrite stacked_v, stacked_s, Mx, Mn.
  assert (tiny < v) by (unfold tiny; nra). rewrite not_close_0 by assumption. unfold bit. rn.
  rewrite C6. rewrite stacked_hue.
  - replace (v * s * (6 * h - IZR (Zfloor (6 * h))) / (v * s)) with (6 * h - IZR (Zfloor (6 * h))) by (field; nra).
    unfold sextant, within_sextant. f_equal. f_equal. unfold sextant. field. lra.
  - assumption.
  - unfold tiny. nra.
  - split; [apply Rmult_le_pos; lra|]. nra.
  - rewrite Rabs_pos_eq by nra. nra.
Qed.
Theorem hsv_rgb_hsv_twelfths (k : Z) s v : (0 <= k < 12)%Z -> 0 <= s <= 1 -> 0 <= v -> 1 / 100000000 + 1 / 100000 * v < v * s ->
  forall r g b, hsv2rgb RN (IZR k / 12) s v = (r, g, b) -> rgb2hsv RN r g b None = [IZR k / 12; s; v].
Proof.
  intros Hk Hs V0 Hv r g b E. assert (0 <= IZR k <= 11) by (split; apply IZR_le; lia).
  rewrite (hsv_rgb_hsv (IZR k / 12) s v) by (try assumption; lra). f_equal. unfold within_sextant, sextant.
  assert (6 * (IZR k / 12) = IZR k / 2) as -> by field.
  assert (Zfloor (IZR k / 2) = (k / 2)%Z) as ->.
  { apply Zfloor_imp. assert (k = 2 * (k / 2) + k mod 2)%Z as Ek by lia. assert (0 <= k mod 2 < 2)%Z by lia.
    set (q := (k / 2)%Z) in *. set (rr := (k mod 2)%Z) in *. rewrite Ek, !plus_IZR, mult_IZR.
    assert (0 <= IZR rr <= 1) by (split; apply IZR_le; lia). lra. }
  assert (k = 2 * (k / 2) + k mod 2)%Z as Ek by lia. assert (k mod 2 = 0 \/ k mod 2 = 1)%Z as C by lia.
  set (q := (k / 2)%Z) in *. set (rr := (k mod 2)%Z) in *. rewrite Ek, !plus_IZR, mult_IZR. unfold reflect.
  destruct C as [-> | ->]; destruct (Req_EM_T _ 0); lra.
Qed.
Theorem hsv_rgb_hsv_wrong h s v : 0 <= h < 1 -> 0 <= s <= 1 -> 0 <= v -> 1 / 100000000 + 1 / 100000 * v < v * s ->
  (forall k : Z, 12 * h <> IZR k) ->
  forall r g b hue sat val, hsv2rgb RN h s v = (r, g, b) -> rgb2hsv RN r g b None = [hue; sat; val] -> hue <> h.
Proof.
  intros Hh Hs V0 Hv Hk r g b hue sat val E E2. rewrite (hsv_rgb_hsv h s v) in E2 by assumption. injection E2 as <- _ _.
  unfold reflect. destruct (Req_EM_T _ 0) as [Z|Z].
  - exfalso. apply (Hk (2 * sextant h)%Z). unfold within_sextant in Z. rewrite mult_IZR. lra.
  - intros A. apply (Hk (2 * sextant h + 1)%Z). unfold within_sextant in *. rewrite plus_IZR, mult_IZR. lra.
Qed.
Theorem rgb2hsv_alpha_value (r g b a : R) : max3 r g b < a -> exists h s, rgb2hsv RN r g b (Some a) = [h; s; a; a].
Proof.
  intros H. unfold rgb2hsv.
  match goal with |- context[stacked2hsv RN ?x] => set (l := x) end. assert (snd (stacked2hsv RN l) = a) as E.
  { unfold l, stacked2hsv. cbv zeta. cbn [snd]. unfold amax. cbn [fold_left]. rewrite !RN_nmax.
    fold (max3 r g b). rewrite Rmax_right by lra. reflexivity. }
  destruct (stacked2hsv RN l) as [[h s] v]. cbn [snd] in E. subst v. exists h, s. reflexivity.
Qed.
Theorem hsv2rgb_negative_hue h : - (1 / 6) < h < 0 -> exists r b, hsv2rgb RN h 1 1 = (r, 6 * h, b).
Proof.
  intros H. unfold hsv2rgb. change (nmul RN (nofZ RN 6) h) with (6 * h).
  assert (int8 RN (6 * h) = 0%Z) as ->.
  { unfold int8. rewrite RN_ntrunc. rewrite Ztrunc_ceil by lra. rewrite (Zceil_imp 0); [reflexivity|]. simpl. lra. }
  do 2 eexists. cbn -[Rmult Rplus Rminus]. apply f_equal2; [|reflexivity]. apply f_equal2; [reflexivity|]. rring.
Qed.

(** * complex2rgb *)
Theorem np_angle_polar (z : Complex.C) : - PI < np_angle z <= PI /\
  z = (Complex.Cmod z * cos (np_angle z), Complex.Cmod z * sin (np_angle z)).
Proof.
  unfold np_angle. pose proof PI_RGT_0. destruct (Req_EM_T (Complex.Cmod z) 0) as [Z|Z].
  - split; [lra|]. apply Complex.Cmod_eq_0 in Z. rewrite Z. rewrite Complex.Cmod_0. unfold Complex.RtoC. f_equal; ring.
  - pose proof (Complex.Cmod_ge_0 z). assert (0 < Complex.Cmod z) as P by lra.
    assert ((Complex.Cmod z) ^ 2 = (fst z) ^ 2 + (snd z) ^ 2) as Q.
    { unfold Complex.Cmod. rewrite pow2_sqrt; [reflexivity|]. nra. }
    assert (-1 <= fst z / Complex.Cmod z <= 1) as B.
    { split; [apply Rle_div_r; [lra|nra]|apply Rle_div_l; [lra|nra]]. }
    pose proof (acos_bound (fst z / Complex.Cmod z)) as A.
    destruct (Rle_dec 0 (snd z)) as [S|S].
    + split; [lra|]. rewrite cos_acos, sin_acos by assumption.
      rewrite (surjective_pairing z) at 1. f_equal; [field; lra|].
      assert (1 - Rsqr (fst z / Complex.Cmod z) = Rsqr (snd z / Complex.Cmod z)) as ->.
      { unfold Rsqr. apply Rmult_eq_reg_r with (Complex.Cmod z ^ 2); [|nra]. field_simplify; [lra| |]; lra. }
      rewrite sqrt_Rsqr by (apply Rdiv_le_0_compat; lra). field. lra.
    + split.
      * split; [|lra]. assert (acos (fst z / Complex.Cmod z) <> PI); [|lra]. intros E.
        assert (cos (acos (fst z / Complex.Cmod z)) = -1) as E2 by (rewrite E; apply cos_PI).
        rewrite cos_acos in E2 by assumption. assert (fst z = - Complex.Cmod z) as E3.
        { rewrite <- (Rmult_1_r (fst z)), <- (Rinv_l (Complex.Cmod z)) by lra. unfold Rdiv in E2. nra. }
        rewrite E3 in Q. nra.
      * rewrite cos_neg, sin_neg, cos_acos, sin_acos by assumption.
        rewrite (surjective_pairing z) at 1. f_equal; [field; lra|].
        assert (1 - Rsqr (fst z / Complex.Cmod z) = Rsqr (- snd z / Complex.Cmod z)) as ->.
        { unfold Rsqr. apply Rmult_eq_reg_r with (Complex.Cmod z ^ 2); [|nra]. field_simplify; [lra| |]; lra. }
        rewrite sqrt_Rsqr by (apply Rdiv_le_0_compat; lra). field. lra.
Qed.
Lemma turns_range z : - (1 / 2) < np_angle z / (2 * PI) <= 1 / 2.
Proof.
  destruct (np_angle_polar z) as [[A B] _]. pose proof PI_RGT_0. split.
  - apply Rlt_div_r; [lra|]. lra.
  - apply Rle_div_l; [lra|]. lra.
Qed.
Definition intensity_of (inverted : bool) (a : R) : R := if inverted then Rmax 0 (1 - 1 / 2 * a) else Rmin a 1.
Definition saturation_of (inverted : bool) (a : R) : R := Rmin (Rmax (if inverted then a else 2 - a) 0) 1.
Lemma polar2rgb_formula a t inverted alpha : - (1 / 2) < t <= 1 / 2 ->
  polar2rgb RN a t inverted alpha =
  let s := saturation_of inverted a in let v := intensity_of inverted a in
  [hsv_channel 5 (t + 1 / 2) s v; hsv_channel 3 (t + 1 / 2) s v; hsv_channel 1 (t + 1 / 2) s v] ++
  match alpha with None => [] | Some x => [v * x] end.
Proof.
  intros H. unfold polar2rgb, hsv2rgb_image.
  change (nadd RN t (ndiv RN (nofZ RN 1) (nofZ RN 2))) with (t + 1 / 2).
  rewrite hsv2rgb_formula by lra. unfold hsv_colour, saturation_of, intensity_of, clip01. rewrite !RN_nmin, !RN_nmax.
  destruct inverted, alpha; reflexivity.
Qed.
Lemma intensity_range inverted a : 0 <= a -> 0 <= intensity_of inverted a <= 1.
Proof. intros. unfold intensity_of, Rmax, Rmin. destruct inverted; minmax; lra. Qed.
Lemma saturation_range inverted a : 0 <= saturation_of inverted a <= 1.
Proof. unfold saturation_of, Rmax, Rmin. destruct inverted; minmax; lra. Qed.
Lemma channel_unit n t inverted a : 0 <= a ->
  0 <= hsv_channel n t (saturation_of inverted a) (intensity_of inverted a) <= 1.
Proof.
  intros Ha. pose proof (intensity_range inverted a Ha). pose proof (saturation_range inverted a) as Hs.
  pose proof (hsv_channel_range n t _ (intensity_of inverted a) Hs ltac:(lra)). nra.
Qed.
Lemma plain_cases a : 0 <= a ->
  (a <= 1 /\ saturation_of false a = 1 /\ intensity_of false a = a) \/
  (1 <= a <= 2 /\ saturation_of false a = 2 - a /\ intensity_of false a = 1) \/
  (2 <= a /\ saturation_of false a = 0 /\ intensity_of false a = 1).
Proof.
  intros H. unfold saturation_of, intensity_of, Rmax, Rmin.
  destruct (Rle_dec a 1); [left; minmax; lra|right]. destruct (Rle_dec a 2); [left; minmax; lra|right; minmax; lra].
Qed.
Lemma inverted_cases a : 0 <= a ->
  (a <= 1 /\ saturation_of true a = a /\ intensity_of true a = 1 - a / 2) \/
  (1 <= a <= 2 /\ saturation_of true a = 1 /\ intensity_of true a = 1 - a / 2) \/
  (2 <= a /\ saturation_of true a = 1 /\ intensity_of true a = 0).
Proof.
  intros H. unfold saturation_of, intensity_of, Rmax, Rmin.
  destruct (Rle_dec a 1); [left; minmax; lra|right]. destruct (Rle_dec a 2); [left; minmax; lra|right; minmax; lra].
Qed.
Lemma channel_brighter n t a b : 0 <= a <= b ->
  hsv_channel n t (saturation_of false a) (intensity_of false a) <= hsv_channel n t (saturation_of false b) (intensity_of false b).
Proof.
  intros H. unfold hsv_channel. fold (clampk (n + 6 * t - 6 * IZR (Zfloor ((n + 6 * t) / 6)))).
  set (c := clampk _). pose proof (clampk_range (n + 6 * t - 6 * IZR (Zfloor ((n + 6 * t) / 6)))) as C. fold c in C. clearbody c.
  destruct (plain_cases a) as [(A & -> & ->)|[(A & -> & ->)|(A & -> & ->)]]; [lra| | |];
  destruct (plain_cases b) as [(B & -> & ->)|[(B & -> & ->)|(B & -> & ->)]]; try lra; nra.
Qed.
Lemma channel_darker n t a b : 0 <= a <= b ->
  hsv_channel n t (saturation_of true b) (intensity_of true b) <= hsv_channel n t (saturation_of true a) (intensity_of true a).
Proof.
  intros H. unfold hsv_channel. fold (clampk (n + 6 * t - 6 * IZR (Zfloor ((n + 6 * t) / 6)))).
  set (c := clampk _). pose proof (clampk_range (n + 6 * t - 6 * IZR (Zfloor ((n + 6 * t) / 6)))) as C. fold c in C. clearbody c.
  destruct (inverted_cases a) as [(A & -> & ->)|[(A & -> & ->)|(A & -> & ->)]]; [lra| | |];
  destruct (inverted_cases b) as [(B & -> & ->)|[(B & -> & ->)|(B & -> & ->)]]; try lra.
  - assert ((1 - b / 2) * (1 - b * c) <= (1 - a / 2) * (1 - a * c)); [|lra].
    apply Rmult_le_compat; nra.
  - assert ((1 - b / 2) * (1 - c) <= (1 - a / 2) * (1 - a * c)); [|lra]. apply Rmult_le_compat; nra.
  - assert (0 <= (1 - a / 2) * (1 - a * c)); [apply Rmult_le_pos; nra|lra].
  - assert (a = 1) as -> by lra. assert (b = 1) as -> by lra. lra.
  - assert ((1 - b / 2) * (1 - c) <= (1 - a / 2) * (1 - c)); [|lra]. apply Rmult_le_compat_r; lra.
  - assert (0 <= (1 - a / 2) * (1 - c)); [apply Rmult_le_pos; lra|lra].
  - assert (a = 2) as -> by lra. assert (b = 2) as -> by lra. lra.
Qed.
Lemma max_abs_nonneg image : 0 <= max_abs image.
Proof. induction image; cbn; [lra|]. eapply Rle_trans; [apply IHimage|apply Rmax_r]. Qed.
Lemma amplitude_nonneg n image z : 0 <= amplitude n image z.
Proof.
  pose proof (Complex.Cmod_ge_0 z). unfold amplitude. destruct n as [n|]; [|assumption].
  destruct (Rlt_dec 0 n); [|assumption]. destruct (Rlt_dec 0 (max_abs image)); [|assumption].
  apply Rmult_le_pos; [assumption|]. apply Rdiv_le_0_compat; lra.
Qed.
Lemma amplitude_mono n image z w : Complex.Cmod z <= Complex.Cmod w -> amplitude n image z <= amplitude n image w.
Proof.
  intros H. unfold amplitude. destruct n as [n|]; [|assumption].
  destruct (Rlt_dec 0 n); [|assumption]. destruct (Rlt_dec 0 (max_abs image)); [|assumption].
  apply Rmult_le_compat_r; [|assumption]. apply Rdiv_le_0_compat; lra.
Qed.
Lemma to_dtype_mono d (x y : R) : (forall m, d = DtNumpyInteger m -> (0 <= m)%Z) -> x <= y -> to_dtype RN d x <= to_dtype RN d y.
Proof.
  intros Hm H. destruct d as [|m|]; cbn [to_dtype]; [assumption| |]; rewrite !RN_ntrunc; rn; apply IZR_le, Ztrunc_le; [|assumption].
  specialize (Hm m eq_refl). apply IZR_le in Hm. nra.
Qed.
Theorem complex2rgb_formula image n inverted alpha :
  complex2rgb image n inverted alpha DtFloat =
  map (fun z => let a := amplitude n image z in
         let v := if inverted then Rmax 0 (1 - a / 2) else Rmin a 1 in
         let s := Rmin (Rmax (if inverted then a else 2 - a) 0) 1 in
         let '(r, g, b) := hsv_colour (np_angle z / (2 * PI) + 1 / 2) s v in
         [r; g; b] ++ match alpha with None => [] | Some x => [v * x] end) image.
Proof.
  unfold complex2rgb. apply map_ext. intros z. rewrite polar2rgb_formula by apply turns_range.
  cbv zeta. unfold hsv_colour, intensity_of, saturation_of. replace (1 / 2 * amplitude n image z) with (amplitude n image z / 2) by field.
  rewrite map_app. destruct alpha; reflexivity.
Qed.
Theorem complex2rgb_range image n inverted alpha dtype :
  (forall x, alpha = Some x -> 0 <= x <= 1) ->
  forall pixel x, In pixel (complex2rgb image n inverted alpha dtype) -> In x pixel ->
  match dtype with
  | DtFloat => 0 <= x <= 1
  | DtNumpyInteger m => (0 <= m)%Z -> exists k, (0 <= k <= m)%Z /\ x = IZR k
  | DtPythonInt => x = 0 \/ x = 1
  end.
Proof.
  intros Ha pixel x Hp Hx. unfold complex2rgb in Hp. apply in_map_iff in Hp as (z & <- & _).
  rewrite polar2rgb_formula in Hx by apply turns_range. cbv zeta in Hx.
  set (a := amplitude n image z) in *. assert (0 <= a) as A by apply amplitude_nonneg.
  apply in_map_iff in Hx as (y & <- & Hy).
  assert (0 <= y <= 1) as Y.
  { apply in_app_or in Hy as [Hy|Hy].
    - cbn in Hy. destruct Hy as [<-|[<-|[<-|[]]]]; apply channel_unit; assumption.
    - destruct alpha as [al|]; [|destruct Hy]. cbn in Hy. destruct Hy as [<-|[]].
      specialize (Ha al eq_refl). pose proof (intensity_range inverted a A). nra. }
  destruct dtype as [|m|]; cbn [to_dtype]; [exact Y| |]; rewrite RN_ntrunc; rn.
  - intros Hm. pose proof (IZR_le _ _ Hm) as Hm'. exists (Ztrunc (y * IZR m + 1 / 2)). split; [|reflexivity].
    rewrite Ztrunc_floor by nra. split; [apply Zfloor_lub; nra|].
    apply Z.lt_succ_r. apply lt_IZR. rewrite succ_IZR. eapply Rle_lt_trans; [apply Zfloor_lb|]. nra.
  - rewrite Ztrunc_floor by lra. destruct (Rlt_dec y 1) as [L|L].
    + left. rewrite (Zfloor_imp 0); [reflexivity|]. simpl. lra.
    + right. assert (y = 1) as -> by lra. rewrite Zfloor_IZR. reflexivity.
Qed.
Theorem complex2rgb_brightness image n inverted alpha dtype i j z w p q :
  (forall m, dtype = DtNumpyInteger m -> (0 <= m)%Z) -> (forall x, alpha = Some x -> 0 <= x) ->
  nth_error image i = Some z -> nth_error image j = Some w ->
  nth_error (complex2rgb image n inverted alpha dtype) i = Some p -> nth_error (complex2rgb image n inverted alpha dtype) j = Some q ->
  np_angle z = np_angle w -> Complex.Cmod z <= Complex.Cmod w ->
  if inverted then Forall2 Rle q p else Forall2 Rle p q.
Proof.
  intros Hm Ha Hi Hj Hp Hq An Le. unfold complex2rgb in Hp, Hq.
  rewrite (map_nth_error _ _ _ Hi) in Hp. rewrite (map_nth_error _ _ _ Hj) in Hq. injection Hp as <-. injection Hq as <-.
  pose proof (amplitude_mono n image z w Le) as L. pose proof (amplitude_nonneg n image z) as L0. rewrite <- An.
  set (a := amplitude n image z) in *. set (b := amplitude n image w) in *.
  rewrite !polar2rgb_formula by apply turns_range. cbv zeta.
  assert (forall l1 l2, Forall2 Rle l1 l2 -> Forall2 Rle (map (to_dtype RN dtype) l1) (map (to_dtype RN dtype) l2)) as FM.
  { intros l1 l2 F. induction F; cbn; constructor; [apply to_dtype_mono; assumption|assumption]. }
  assert (0 <= a <= b) as AB by lra.
  destruct inverted; apply FM; apply Forall2_app.
  - repeat apply Forall2_cons; try apply Forall2_nil; apply channel_darker; assumption.
  - destruct alpha as [x|]; [|apply Forall2_nil]. apply Forall2_cons; [|apply Forall2_nil]. specialize (Ha x eq_refl). apply Rmult_le_compat_r; [assumption|].
    unfold intensity_of, Rmax. minmax; lra.
  - repeat apply Forall2_cons; try apply Forall2_nil; apply channel_brighter; assumption.
  - destruct alpha as [x|]; [|apply Forall2_nil]. apply Forall2_cons; [|apply Forall2_nil]. specialize (Ha x eq_refl). apply Rmult_le_compat_r; [assumption|].
    unfold intensity_of, Rmin. minmax; lra.
Qed.
Lemma np_angle_0 : np_angle (0, 0) = 0.
Proof. unfold np_angle. change (0, 0) with (Complex.RtoC 0). rewrite Complex.Cmod_0. destruct (Req_EM_T 0 0); [reflexivity|lra]. Qed.
Lemma amplitude_0 n image : amplitude n image (0, 0) = 0.
Proof.
  unfold amplitude. change (0, 0) with (Complex.RtoC 0). rewrite Complex.Cmod_0. destruct n; [|reflexivity].
  destruct (Rlt_dec 0 _); [|reflexivity]. destruct (Rlt_dec 0 _); [ring|reflexivity].
Qed.
Theorem complex2rgb_zero image n inverted i : nth_error image i = Some (0, 0) ->
  nth_error (complex2rgb image n inverted None DtFloat) i = Some (if inverted then [1; 1; 1] else [0; 0; 0]).
Proof.
  intros H. unfold complex2rgb. rewrite (map_nth_error _ _ _ H). f_equal. rewrite polar2rgb_formula by apply turns_range.
  rewrite amplitude_0. cbv zeta. rewrite app_nil_r.
  assert (forall k, hsv_channel k (np_angle (0, 0) / (2 * PI) + 1 / 2) (saturation_of inverted 0) (intensity_of inverted 0) = if inverted then 1 else 0) as E.
  { intros k. unfold hsv_channel, saturation_of, intensity_of. fold (clampk (k + 6 * (np_angle (0, 0) / (2 * PI) + 1 / 2) - 6 * IZR (Zfloor ((k + 6 * (np_angle (0, 0) / (2 * PI) + 1 / 2)) / 6)))).
    set (c := clampk _). clearbody c. unfold Rmax, Rmin. destruct inverted; minmax; lra. }
  rewrite !E. destruct inverted; reflexivity.
Qed.
Lemma Cmod_scale c z : 0 <= c -> Complex.Cmod (Complex.Cmult (Complex.RtoC c) z) = c * Complex.Cmod z.
Proof. intros H. rewrite Complex.Cmod_mult, Complex.Cmod_R, Rabs_pos_eq by assumption. reflexivity. Qed.
Lemma np_angle_scale c z : 0 < c -> np_angle (Complex.Cmult (Complex.RtoC c) z) = np_angle z.
Proof.
  intros H. unfold np_angle. rewrite Cmod_scale by lra. cbn [fst snd Complex.Cmult Complex.RtoC].
  destruct (Req_EM_T (c * Complex.Cmod z) 0) as [E|E], (Req_EM_T (Complex.Cmod z) 0) as [E2|E2]; [reflexivity| | |].
  - apply Rmult_integral in E as [E|E]; [lra|contradiction].
  - rewrite E2, Rmult_0_r in E. contradiction.
  - replace ((c * fst z - 0 * snd z) / (c * Complex.Cmod z)) with (fst z / Complex.Cmod z) by (field; lra).
    destruct (Rle_dec 0 (c * snd z + 0 * fst z)) as [A|A], (Rle_dec 0 (snd z)) as [B|B]; try reflexivity; exfalso; nra.
Qed.
Lemma max_abs_scale c image : 0 < c -> max_abs (map (Complex.Cmult (Complex.RtoC c)) image) = c * max_abs image.
Proof.
  intros H. induction image as [|z image IH]; cbn [max_abs map fold_right]; [ring|].
  fold (max_abs (map (Complex.Cmult (Complex.RtoC c)) image)). fold (max_abs image). rewrite IH, Cmod_scale by lra.
  unfold Rmax. destruct (Rle_dec _ _), (Rle_dec _ _); try reflexivity; exfalso; nra.
Qed.
Theorem complex2rgb_scale image n inverted alpha dtype c : 0 < n -> 0 < c ->
  complex2rgb (map (Complex.Cmult (Complex.RtoC c)) image) (Some n) inverted alpha dtype =
  complex2rgb image (Some n) inverted alpha dtype.
Proof.
  intros Hn Hc. unfold complex2rgb. rewrite map_map. apply map_ext_in. intros z Hz.
  rewrite np_angle_scale by assumption. f_equal. f_equal. unfold amplitude. rewrite max_abs_scale, Cmod_scale by lra.
  destruct (Rlt_dec 0 n); [|contradiction].
  assert (Complex.Cmod z <= max_abs image) as B.
  { clear - Hz. induction image as [|w image IH]; [destruct Hz|]. cbn. destruct Hz as [->|Hz]; [apply Rmax_l|].
    eapply Rle_trans; [apply IH; assumption|apply Rmax_r]. }
  pose proof (Complex.Cmod_ge_0 z).
  destruct (Rlt_dec 0 (c * max_abs image)) as [A|A], (Rlt_dec 0 (max_abs image)) as [A2|A2]; try (exfalso; nra).
  - field. lra.
  - assert (Complex.Cmod z = 0) as -> by lra. ring.
Qed.
Theorem complex2rgb_int_refuted image n inverted pixel x y i :
  (i < 3)%nat -> In pixel (combine (complex2rgb image n inverted None DtFloat) (complex2rgb image n inverted None DtPythonInt)) ->
  nth_error (fst pixel) i = Some x -> nth_error (snd pixel) i = Some y -> x < 1 -> y = 0.
Proof.
  intros Hi Hp Hx Hy L. assert (exists z, In z image /\ pixel = (map (to_dtype RN DtFloat) (polar2rgb RN (amplitude n image z) (np_angle z / (2 * PI)) inverted None),
      map (to_dtype RN DtPythonInt) (polar2rgb RN (amplitude n image z) (np_angle z / (2 * PI)) inverted None))) as (z & Hz & ->).
  { unfold complex2rgb in Hp. generalize dependent image. intros image. generalize (amplitude n image) as am. intros am.
    induction image as [|w image IH]; cbn [map combine]; intros Hp; [destruct Hp|].
    destruct Hp as [<-|Hp]; [exists w; split; [left|]; reflexivity|]. destruct (IH Hp) as (z & Hz & E). exists z. split; [right|]; assumption. }
  cbn [fst snd] in Hx, Hy. rewrite nth_error_map in Hx, Hy. rewrite polar2rgb_formula in Hx, Hy by apply turns_range.
  destruct (nth_error _ i) as [c|] eqn:E; [|discriminate]. cbn in Hx. injection Hx as <-. cbn [option_map to_dtype] in Hy. injection Hy as <-.
  assert (0 <= c <= 1) as B.
  { apply nth_error_In in E. cbv zeta in E. rewrite app_nil_r in E. cbn in E.
    destruct E as [<-|[<-|[<-|[]]]]; apply channel_unit; apply amplitude_nonneg. }
  rewrite RN_ntrunc, Ztrunc_floor by lra. rewrite (Zfloor_imp 0); [reflexivity|]. simpl. lra.
Qed.
Lemma hsv_colour_periodic h s v : hsv_colour (h + 1) s v = hsv_colour h s v.
Proof. unfold hsv_colour. rewrite !hsv_channel_periodic. reflexivity. Qed.
Lemma hsv2rgb_image_alpha h s v a r g b : hsv2rgb RN h s v = (r, g, b) ->
  hsv2rgb_image RN h s v (Some a) = [r; g; b; a] /\ hsv2rgb_image RN h s v None = [r; g; b].
Proof. intros E. unfold hsv2rgb_image. rewrite E. split; reflexivity. Qed.
