(** C170 and C171: colour conversions of whole images. *)
From Coq Require Import Reals Lra Lia ZArith List.
Require Import Verif.Base Verif.Num Verif.Display_Model Verif.Image_Model Verif.Image_Spec Verif.Image_Proofs Verif.Image_Bytes.
Require Verif.Array_Model Verif.CSum.
Import ListNotations.
Local Open Scope R_scope.

(** C170.  hsv2rgb of separate arrays: with the broadcast values at each pixel, and the channels at the axis asked for... *)
Theorem image_hsv2rgb_parts : forall (h s v : image RN) alpha axis colours out before after,
  common_shape RN [h; s; v] = Ok colours ->
  (match alpha with None => out = colours | Some a => Array_Model.bshape colours (ishape a) = Some out end) ->
  out = before ++ after -> stands_for (S (length out)) axis (length before) ->
  exists r, hsv2rgb_array RN h (Some s) (Some v) alpha axis = Ok r /\
    has_pixels r before after (match alpha with None => 3 | Some _ => 4 end)
      (fun i j => hsv2rgb_image RN (spread RN h (i ++ j)) (spread RN s (i ++ j)) (spread RN v (i ++ j)) (option_map (fun a => spread RN a (i ++ j)) alpha)).
Proof. exact (rgb_parts RN). Qed.
Print Assumptions image_hsv2rgb_parts.
(** ... where an array of the shape of the image has its own value at each pixel, and a number the same value at all. *)
Theorem image_broadcast : forall (a : image RN) p x, (CSum.inside (ishape a) p -> length p = idim a -> spread RN a p = iget a p) /\ spread RN (Img [] (fun _ => x)) p = x.
Proof. exact (fun a p x => conj (fun H L => spread_same RN a p L H) (spread_number RN x p)). Qed.
Print Assumptions image_broadcast.
(** An image in one array, with the channels at any axis and a fourth one for alpha, is converted pixel by pixel. *)
Theorem image_hsv2rgb_pixels : forall (a : image RN) n before after alpha axis,
  ishape a = before ++ n :: after -> (3 <= n)%nat -> stands_for (S (length (before ++ after))) axis (length before) -> (forall x, alpha = Some x -> ishape x = before ++ after) ->
  exists r, hsv2rgb_array RN a None None alpha axis = Ok r /\
    has_pixels r before after (if (match alpha with Some _ => true | None => 3 <? n end)%nat then 4 else 3)
      (fun i j => hsv2rgb_image RN (iget a (i ++ 0%nat :: j)) (iget a (i ++ 1%nat :: j)) (iget a (i ++ 2%nat :: j))
         (match alpha with Some x => Some (iget x (i ++ j)) | None => if (3 <? n)%nat then Some (iget a (i ++ 3%nat :: j)) else None end)).
Proof. exact (hsv_image_pixels RN). Qed.
Print Assumptions image_hsv2rgb_pixels.
Theorem image_hsv2rgb_errors : forall (a s v : image RN) alpha axis,
  hsv2rgb_array RN a (Some s) None alpha axis = Err TypeError /\ hsv2rgb_array RN a None (Some v) alpha axis = Err TypeError /\
  ((forall k, ~ stands_for (idim a) axis k) -> hsv2rgb_array RN a None None alpha axis = Err ValueError) /\
  (forall n before after, ishape a = before ++ n :: after -> stands_for (idim a) axis (length before) -> (n < 3)%nat -> hsv2rgb_array RN a None None alpha axis = Err IndexError).
Proof. exact (hsv_errors RN). Qed.
Print Assumptions image_hsv2rgb_errors.
(** rgb2hsv converts pixel by pixel too; a fourth channel of the image is not passed on, unlike a separate alpha channel of the shape of the image. *)
Theorem image_rgb2hsv_pixels_partial : forall (a : image RN) n before after alpha axis,
  ishape a = before ++ n :: after -> (3 <= n)%nat -> stands_for (S (length (before ++ after))) axis (length before) -> (forall x, alpha = Some x -> ishape x = before ++ after) ->
  exists r, rgb2hsv_array RN a None None alpha axis = Ok r /\
    has_pixels r before after (match alpha with None => 3 | Some _ => 4 end) (fun i j => hsv_and (channels_at a n i j) (option_map (fun x => iget x (i ++ j)) alpha)).
Proof. exact (rgb_image_pixels RN). Qed.
Print Assumptions image_rgb2hsv_pixels_partial.
Theorem image_rgb2hsv_parts_partial : forall (red green blue : image RN) alpha axis before after,
  common_shape RN ([red; green; blue] ++ match alpha with None => [] | Some x => [x] end) = Ok (before ++ after) ->
  stands_for (S (length (before ++ after))) axis (length before) -> (forall x, alpha = Some x -> ishape x = before ++ after) ->
  exists r, rgb2hsv_array RN red (Some green) (Some blue) alpha axis = Ok r /\
    has_pixels r before after (match alpha with None => 3 | Some _ => 4 end)
      (fun i j => rgb2hsv RN (spread RN red (i ++ j)) (spread RN green (i ++ j)) (spread RN blue (i ++ j)) (option_map (fun x => iget x (i ++ j)) alpha)).
Proof. exact (fun red green blue alpha axis before after => match alpha with None => rgb_parts_pixels RN red green blue None axis before after | Some x => rgb_parts_pixels RN red green blue (Some x) axis before after end). Qed.
Print Assumptions image_rgb2hsv_parts_partial.
Theorem image_rgb2hsv_errors : forall (a g b : image RN) alpha axis,
  rgb2hsv_array RN a (Some g) None alpha axis = Err TypeError /\ rgb2hsv_array RN a None (Some b) alpha axis = Err TypeError /\
  ((forall k, ~ stands_for (idim a) axis k) -> rgb2hsv_array RN a None None alpha axis = Err ValueError) /\
  (forall n before after, ishape a = before ++ n :: after -> stands_for (idim a) axis (length before) -> (0 < n < 3)%nat -> rgb2hsv_array RN a None None alpha axis = Err IndexError).
Proof. exact (rgb_errors RN). Qed.
Print Assumptions image_rgb2hsv_errors.
(** An alpha channel that needs broadcasting, such as a number, is refused by rgb2hsv. *)
Theorem image_rgb2hsv_alpha_refuted : forall (red green blue x : image RN) axis shape, common_shape RN [red; green; blue; x] = Ok shape -> ishape x <> shape ->
  rgb2hsv_array RN red (Some green) (Some blue) (Some x) axis = Err ValueError.
Proof. exact (rgb_alpha_shape RN). Qed.
Print Assumptions image_rgb2hsv_alpha_refuted.
(** To RGB and back: the shape, the saturations and the values return; a hue does exactly when it is a multiple of a twelfth. *)
Theorem image_round_trip_partial : forall (a : image RN) before after axis, ishape a = before ++ 3%nat :: after -> stands_for (S (length (before ++ after))) axis (length before) ->
  exists rgb hsv, hsv2rgb_array RN a None None None axis = Ok rgb /\ rgb2hsv_array RN rgb None None None axis = Ok hsv /\ ishape rgb = ishape a /\ ishape hsv = ishape a /\
  forall i j, CSum.inside before i -> CSum.inside after j -> let h := iget a (i ++ 0%nat :: j) in let s := iget a (i ++ 1%nat :: j) in let v := iget a (i ++ 2%nat :: j) in
    0 <= h < 1 -> 0 <= s <= 1 -> 0 <= v -> 1 / 100000000 + 1 / 100000 * v < v * s ->
    iget hsv (i ++ 1%nat :: j) = s /\ iget hsv (i ++ 2%nat :: j) = v /\ (iget hsv (i ++ 0%nat :: j) = h <-> exists k : Z, 12 * h = IZR k).
Proof. exact round_trip. Qed.
Print Assumptions image_round_trip_partial.
(** An image of 2 rows and 5 columns with the channels first, last, or in between; a number as the alpha channel of a row of pixels. *)
Example image_case : stands_for 3 0 0 /\ stands_for 3 (-1) 2 /\ stands_for 3 (-2) 1 /\ CSum.inside [2; 5]%nat [1; 4]%nat /\
  common_shape RN [@Img RN [2; 5]%nat (fun _ => 1); @Img RN [5]%nat (fun _ => 1); @Img RN [2; 1]%nat (fun _ => 1)] = Ok [2; 5]%nat /\
  common_shape RN [@Img RN [5]%nat (fun _ => 1); @Img RN [5]%nat (fun _ => 1); @Img RN [5]%nat (fun _ => 1); @Img RN [] (fun _ => 1)] = Ok [5]%nat.
Proof.
  unfold stands_for. refine (conj _ (conj _ (conj _ (conj _ (conj eq_refl eq_refl))))); try (split; lia). repeat constructor.
Qed.

(** C171.  Unsigned 8-bit images: the saturation and the value are those of the image in floating point numbers, but the hue is not when the channels increase going around
    from red to green to blue, unless the largest minus the least channel divides 256. *)
Theorem image_bytes_partial : forall r g b, (0 <= r <= 255)%Z -> (0 <= g <= 255)%Z -> (0 <= b <= 255)%Z ->
  exists h h' s v, bytes2hsv RN [r; g; b] = (h', s, v) /\ stacked2hsv RN (map IZR [r; g; b]) = (h, s, v) /\ (h' = h <-> ~ increasing r g b \/ (256 mod spread_of r g b = 0)%Z).
Proof. exact bytes_hsv. Qed.
Print Assumptions image_bytes_partial.
Theorem image_bytes_refuted : forall r g b, (0 <= r <= 255)%Z -> (0 <= g <= 255)%Z -> (0 <= b <= 255)%Z -> increasing r g b -> (256 mod spread_of r g b <> 0)%Z ->
  fst (fst (bytes2hsv RN [r; g; b])) <> fst (fst (stacked2hsv RN (map IZR [r; g; b]))).
Proof.
  intros r g b Hr Hg Hb Hi Hd. destruct (bytes_hsv r g b Hr Hg Hb) as (h & h' & s & v & -> & -> & E). cbn [fst]. intros Q. apply E in Q. tauto.
Qed.
Print Assumptions image_bytes_refuted.
Example image_bytes_case : increasing 0 100 200 /\ (256 mod spread_of 0 100 200 <> 0)%Z /\ ~ increasing 200 100 0 /\ increasing 0 64 128 /\ (256 mod spread_of 0 64 128 = 0)%Z.
Proof. unfold increasing, spread_of. cbn. lia. Qed.
