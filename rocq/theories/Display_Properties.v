(** C41-C43 and C62-C66: colours and image extents. *)
From Coq Require Import Reals Lra Lia ZArith List.
From Flocq Require Import Core.Raux.
From Coquelicot Require Import Complex.
From Verif Require Import Base Num Grid_Model Grid_Spec Grid_Rebuild Display_Model Display_Spec Display_Proofs Display_Extent.
Import ListNotations.
Local Open Scope R_scope.

(** C41.  For hues from 0 up to 21 turns, hsv2rgb is the usual closed formula... *)
Theorem hsv2rgb_is_standard : forall h s v, 0 <= 6 * h < 128 -> hsv2rgb RN h s v = hsv_colour h s v.
Proof. exact hsv2rgb_formula. Qed.
Print Assumptions hsv2rgb_is_standard.
(** ... which has channels between value * (1 - saturation) and value, both attained, and period one in the hue. *)
Theorem hsv_colour_range : forall h s v r g b, 0 <= s <= 1 -> 0 <= v -> hsv_colour h s v = (r, g, b) ->
  max3 r g b = v /\ min3 r g b = v * (1 - s) /\ hsv_colour (h + 1) s v = (r, g, b).
Proof.
  exact (fun h s v r g b Hs Hv E => match E in _ = c return max3 (fst (fst c)) (snd (fst c)) (snd c) = v /\
     min3 (fst (fst c)) (snd (fst c)) (snd c) = v * (1 - s) /\ hsv_colour (h + 1) s v = c with
     | eq_refl => conj (proj1 (hsv_max_min h s v Hs Hv)) (conj (proj2 (hsv_max_min h s v Hs Hv)) (hsv_colour_periodic h s v)) end).
Qed.
Print Assumptions hsv_colour_range.
(** The alpha channel is passed through unchanged. *)
Theorem hsv2rgb_alpha : forall h s v a r g b, hsv2rgb RN h s v = (r, g, b) ->
  hsv2rgb_image RN h s v (Some a) = [r; g; b; a] /\ hsv2rgb_image RN h s v None = [r; g; b].
Proof. exact hsv2rgb_image_alpha. Qed.
Print Assumptions hsv2rgb_alpha.
Example hsv2rgb_case : 0 <= 6 * (1 / 24) < 128 /\ 0 <= 1 <= 1. Proof. lra. Qed.

(** C62.  rgb2hsv recovers saturation and value, and the hue at multiples of 30 degrees... *)
Theorem rgb2hsv_inverts_partial : forall (k : Z) s v, (0 <= k < 12)%Z -> 0 <= s <= 1 -> 0 <= v -> 1 / 100000000 + 1 / 100000 * v < v * s ->
  forall r g b, hsv2rgb RN (IZR k / 12) s v = (r, g, b) -> rgb2hsv RN r g b None = [IZR k / 12; s; v].
Proof. exact hsv_rgb_hsv_twelfths. Qed.
Print Assumptions rgb2hsv_inverts_partial.
(** ... but at no other hue: *)
Theorem rgb2hsv_inverts_refuted : forall h s v, 0 <= h < 1 -> 0 <= s <= 1 -> 0 <= v -> 1 / 100000000 + 1 / 100000 * v < v * s ->
  (forall k : Z, 12 * h <> IZR k) ->
  forall r g b hue sat val, hsv2rgb RN h s v = (r, g, b) -> rgb2hsv RN r g b None = [hue; sat; val] -> hue <> h.
Proof. exact hsv_rgb_hsv_wrong. Qed.
Print Assumptions rgb2hsv_inverts_refuted.
(** it is mirrored inside its sextant of the colour circle. *)
Theorem rgb2hsv_mirrors_hue_partial : forall h s v, 0 <= h < 1 -> 0 <= s <= 1 -> 0 <= v -> 1 / 100000000 + 1 / 100000 * v < v * s ->
  forall r g b, hsv2rgb RN h s v = (r, g, b) ->
  rgb2hsv RN r g b None = [(IZR (sextant h) + (if Req_EM_T (within_sextant h) 0 then 0 else 1 - within_sextant h)) / 6; s; v].
Proof. exact hsv_rgb_hsv. Qed.
Print Assumptions rgb2hsv_mirrors_hue_partial.
Example rgb2hsv_case : 1 / 100000000 + 1 / 100000 * 1 < 1 * 1 /\ forall k, 12 * (1 / 24) <> IZR k.
Proof. split; [lra|]. intros k H. assert (IZR (2 * k) = IZR 1) as E by (rewrite mult_IZR; simpl; lra). apply eq_IZR in E. lia. Qed.

(** C63.  A hue just below zero gives a negative green channel. *)
Theorem hsv2rgb_negative_hue_refuted : forall h, - (1 / 6) < h < 0 -> exists r b, hsv2rgb RN h 1 1 = (r, 6 * h, b).
Proof. exact hsv2rgb_negative_hue. Qed.
Print Assumptions hsv2rgb_negative_hue_refuted.

(** C64.  An alpha value above the colour channels is taken for the brightness. *)
Theorem rgb2hsv_alpha_refuted : forall r g b a : R, max3 r g b < a -> exists h s, rgb2hsv RN r g b (Some a) = [h; s; a; a].
Proof. exact rgb2hsv_alpha_value. Qed.
Print Assumptions rgb2hsv_alpha_refuted.

(** C42.  The colour of a complex number: its phase is the hue... *)
Theorem complex2rgb_colours : forall image n inverted alpha,
  complex2rgb image n inverted alpha DtFloat =
  map (fun z => let a := amplitude n image z in
         let v := if inverted then Rmax 0 (1 - a / 2) else Rmin a 1 in
         let s := Rmin (Rmax (if inverted then a else 2 - a) 0) 1 in
         let '(r, g, b) := hsv_colour (np_angle z / (2 * PI) + 1 / 2) s v in
         [r; g; b] ++ match alpha with None => [] | Some x => [v * x] end) image.
Proof. exact complex2rgb_formula. Qed.
Print Assumptions complex2rgb_colours.
Theorem complex2rgb_phase : forall z : C, - PI < np_angle z <= PI /\ z = (Cmod z * cos (np_angle z), Cmod z * sin (np_angle z)).
Proof. exact np_angle_polar. Qed.
Print Assumptions complex2rgb_phase.
(** ... values are in the range of the dtype... *)
Theorem complex2rgb_in_range : forall image n inverted alpha dtype,
  (forall x, alpha = Some x -> 0 <= x <= 1) ->
  forall pixel x, In pixel (complex2rgb image n inverted alpha dtype) -> In x pixel ->
  match dtype with
  | DtFloat => 0 <= x <= 1
  | DtNumpyInteger m => (0 <= m)%Z -> exists k, (0 <= k <= m)%Z /\ x = IZR k
  | DtPythonInt => x = 0 \/ x = 1
  end.
Proof. exact complex2rgb_range. Qed.
Print Assumptions complex2rgb_in_range.
(** ... larger magnitudes are never darker (never brighter when inverted)... *)
Theorem complex2rgb_magnitude : forall image n inverted alpha dtype i j z w p q,
  (forall m, dtype = DtNumpyInteger m -> (0 <= m)%Z) -> (forall x, alpha = Some x -> 0 <= x) ->
  nth_error image i = Some z -> nth_error image j = Some w ->
  nth_error (complex2rgb image n inverted alpha dtype) i = Some p -> nth_error (complex2rgb image n inverted alpha dtype) j = Some q ->
  np_angle z = np_angle w -> Cmod z <= Cmod w ->
  if inverted then Forall2 Rle q p else Forall2 Rle p q.
Proof. exact complex2rgb_brightness. Qed.
Print Assumptions complex2rgb_magnitude.
(** ... zero is black (white when inverted)... *)
Theorem complex2rgb_black : forall image n inverted i, nth_error image i = Some (0, 0) ->
  nth_error (complex2rgb image n inverted None DtFloat) i = Some (if inverted then [1; 1; 1] else [0; 0; 0]).
Proof. exact complex2rgb_zero. Qed.
Print Assumptions complex2rgb_black.
(** ... and a normalised picture does not depend on the scale. *)
Theorem complex2rgb_normalised : forall image n inverted alpha dtype c, 0 < n -> 0 < c ->
  complex2rgb (map (Cmult (RtoC c)) image) (Some n) inverted alpha dtype = complex2rgb image (Some n) inverted alpha dtype.
Proof. exact complex2rgb_scale. Qed.
Print Assumptions complex2rgb_normalised.

(** C65.  With dtype=int (Python's int) every channel that is not saturated becomes 0. *)
Theorem complex2rgb_python_int_refuted : forall image n inverted pixel x y i,
  (i < 3)%nat -> In pixel (combine (complex2rgb image n inverted None DtFloat) (complex2rgb image n inverted None DtPythonInt)) ->
  nth_error (fst pixel) i = Some x -> nth_error (snd pixel) i = Some y -> x < 1 -> y = 0.
Proof. exact complex2rgb_int_refuted. Qed.
Print Assumptions complex2rgb_python_int_refuted.

(** C43.  grid2extent of a grid in increasing index order and of evenly spaced ranges. *)
Theorem grid2extent_of_grid : forall g origin_lower,
  regular g -> multidimensional RN g = true -> (2 <= ndim RN g)%nat ->
  (forall a, (ndim RN g - 2 <= a < ndim RN g)%nat -> origin_at_center RN g a = true /\ (2 <= points g a)%nat) ->
  forall x y, coordinates g (ndim RN g - 1) = Ok x -> coordinates g (ndim RN g - 2) = Ok y ->
  let dx := step_of g (ndim RN g - 1) in let dy := step_of g (ndim RN g - 2) in
  exists left right bottom top,
    grid2extent_grid RN g origin_lower = Ok (if origin_lower then [left; right; top; bottom] else [left; right; bottom; top]) /\
    left = nth 0 x 0 - dx / 2 /\ right = nth (length x - 1) x 0 + dx / 2 /\
    top = nth 0 y 0 - dy / 2 /\ bottom = nth (length y - 1) y 0 + dy / 2 /\
    right - left = INR (length x) * dx /\ bottom - top = INR (length y) * dy.
Proof. exact extent_grid. Qed.
Print Assumptions grid2extent_of_grid.
Theorem grid2extent_of_ranges : forall (ry rx : list R) (others : list (list R)) dx dy,
  (2 <= length rx)%nat -> (2 <= length ry)%nat ->
  (forall j, (j < length rx)%nat -> nth j rx 0 = nth 0 rx 0 + INR j * dx) ->
  (forall j, (j < length ry)%nat -> nth j ry 0 = nth 0 ry 0 + INR j * dy) ->
  grid2extent_ranges RN (others ++ [ry; rx]) false =
    Ok [nth 0 rx 0 - dx / 2; nth (length rx - 1) rx 0 + dx / 2; nth (length ry - 1) ry 0 + dy / 2; nth 0 ry 0 - dy / 2] /\
  grid2extent_ranges RN (others ++ [ry; rx]) true =
    Ok [nth 0 rx 0 - dx / 2; nth (length rx - 1) rx 0 + dx / 2; nth 0 ry 0 - dy / 2; nth (length ry - 1) ry 0 + dy / 2].
Proof. exact extent_ranges. Qed.
Print Assumptions grid2extent_of_ranges.
Example grid2extent_case : (2 <= length [0; 1; 2])%nat /\ forall j, (j < length [0; 1; 2])%nat -> nth j [0; 1; 2] 0 = nth 0 [0; 1; 2] 0 + INR j * 1.
Proof. cbn [length]. split; [lia|]. intros [|[|[|j]]] H; simpl; try lra. lia. Qed.

(** C66.  In the order of numpy.fft (for instance grid.f, grid.k) the picture has no width. *)
Theorem grid2extent_fft_order_refuted : forall g origin_lower a,
  regular g -> multidimensional RN g = true -> (2 <= ndim RN g)%nat -> a = (ndim RN g - 1)%nat ->
  origin_at_center RN g a = false -> (3 <= points g a)%nat ->
  forall left right rest, grid2extent_grid RN g origin_lower = Ok (left :: right :: rest) -> right - left = 0.
Proof. exact extent_fft_order. Qed.
Print Assumptions grid2extent_fft_order_refuted.
Example grid2extent_grids : forall centred : bool, exists g, regular g /\ multidimensional RN g = true /\ ndim RN g = 2%nat /\
  forall a, (a < 2)%nat -> origin_at_center RN g a = centred /\ (3 <= points g a)%nat.
Proof.
  intros centred.
  destruct (rebuild 2 true (AVector RN DInt (map IZR [3; 8]%Z)) DInt (fun i => nth i [3;8]%Z 0%Z)
    (AVector RN DFlt [1; / 2]) DFlt (fun i => nth i [1; /2] 0)
    None DInt (fun i => 0) (BScalar false) (fun _ => false)
    (BScalar centred) (fun _ => centred) (BScalar true) (fun _ => true) false)
   as (g & E & R & N & M & V & T).
  - apply (arg_is_map DInt IZR [3;8]%Z 2 0%Z eq_refl).
  - intros [|[|i]] Hi; cbn; lia.
  - apply (arg_is_list 2 DFlt [1; / 2] eq_refl).
  - auto.
  - apply flag_is_scalar.
  - apply flag_is_scalar.
  - apply flag_is_scalar.
  - discriminate.
  - destruct (V 0%nat) as (S0&T0&_&_&O0&_); [lia|]. destruct (V 1%nat) as (S1&T1&_&_&O1&_); [lia|]. cbn in S0, S1, T0, T1.
    exists g. split; [exact R|]. split; [exact M|]. split; [exact N|].
    intros [|[|a]] Ha; unfold points; [rewrite S0|rewrite S1|lia]; (split; [assumption|cbn; lia]).
Qed.
