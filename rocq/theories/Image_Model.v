(** Model of hsv2rgb and rgb2hsv on whole arrays, with the channel axis, and on unsigned 8-bit integers: python/macromax/utils/display/hsv.py lines 5-114.
    The conversion of one pixel is that of Display_Model.  Simplified: an AxisError, which is both a ValueError and an IndexError, is a ValueError; arguments are arrays or None;
    numbers are exact. *)
From Coq Require Import ZArith List Arith Bool.
Require Import Verif.Base Verif.Num Verif.Display_Model.
Require Verif.Array_Model.
Import ListNotations.

(** ** numpy *)
(** An element inserted at, or removed from, a position of a list. *)
Definition insert_at {A} (k : nat) (x : A) (l : list A) : list A := firstn k l ++ x :: skipn k l.
Definition remove_at {A} (k : nat) (l : list A) : list A := firstn k l ++ skipn (S k) l.
(** The axis that an index, possibly negative, stands for. *)
Definition axis_of (ndim : nat) (axis : Z) : result nat :=
  if ((- Z.of_nat ndim <=? axis) && (axis <? Z.of_nat ndim))%Z then Ok (Z.to_nat (if (axis <? 0)%Z then axis + Z.of_nat ndim else axis)%Z) else Err ValueError.

Section Images.
  Variable N : num.
  Local Notation "# z" := (nofZ N z) (at level 2).
  (** An ndarray: its shape and its elements by index. *)
  Record image : Type := Img { ishape : list nat; iget : list nat -> N }.
  Definition idim (a : image) : nat := length (ishape a).
  (** np.moveaxis(a, axis, 0) and np.moveaxis(a, 0, axis). *)
  Definition to_front (axis : Z) (a : image) : result image :=
    do k <- axis_of (idim a) axis;
    Ok (Img (nth k (ishape a) 0%nat :: remove_at k (ishape a)) (fun p => iget a (insert_at k (hd 0%nat p) (tl p)))).
  Definition from_front (axis : Z) (a : image) : result image :=
    do k <- axis_of (idim a) axis;
    Ok (Img (insert_at k (hd 0%nat (ishape a)) (tl (ishape a))) (fun p => iget a (nth k p 0%nat :: remove_at k p))).
  (** a[c] *)
  Definition channel (a : image) (c : nat) : result image :=
    if (c <? hd 0%nat (ishape a))%nat then Ok (Img (tl (ishape a)) (fun p => iget a (c :: p))) else Err IndexError.
  (** np.broadcast_arrays, and the shape of elementwise operations. *)
  Fixpoint common_shape (l : list image) : result (list nat) :=
    match l with
    | [] => Ok []
    | a :: l' => do s <- common_shape l'; match Array_Model.bshape (ishape a) s with Some r => Ok r | None => Err ValueError end
    end.
  Definition spread (a : image) (p : list nat) : N := iget a (Array_Model.clip (ishape a) (skipn (length p - idim a) p)).
  Definition broadcast_arrays (l : list image) : result (list image) := do s <- common_shape l; Ok (map (fun a => Img s (spread a)) l).
  (** np.stack *)
  Definition stack (l : list image) : result image :=
    match l with
    | [] => Err ValueError
    | a :: l' =>
        if forallb (fun b => if list_eq_dec Nat.eq_dec (ishape b) (ishape a) then true else false) l'
        then Ok (Img (length l :: ishape a) (fun p => iget (nth (hd 0%nat p) l a) (tl p))) else Err ValueError
    end.

  (** The hue, the saturation, the value and the alpha channel, lines 24-34.  Arithmetic with None raises a TypeError, lines 36-42. *)
  Definition hsv_arguments (hue : image) (saturation value alpha : option image) (axis : Z) : result (image * image * image * option image) :=
    match saturation, value with
    | None, None =>
        do hsv_image <- to_front axis hue;
        do alpha <- (match alpha with None => if (3 <? hd 0%nat (ishape hsv_image))%nat then rmap Some (channel hsv_image 3) else Ok None | Some a => Ok (Some a) end);
        do v <- channel hsv_image 2;
        do s <- channel hsv_image 1;
        do h <- channel hsv_image 0;
        Ok (h, s, v, alpha)
    | Some s, Some v => Ok (hue, s, v, alpha)
    | _, _ => Err TypeError
    end.
  (** hsv2rgb, lines 36-52. *)
  Definition hsv2rgb_array (hue : image) (saturation value alpha : option image) (axis : Z) : result image :=
    do x <- hsv_arguments hue saturation value alpha axis;
    let '(h, s, v, alpha) := x in
    do bs <- common_shape [h; s; v];
    let part (f : N * N * N -> N) := Img bs (fun p => f (hsv2rgb N (spread h p) (spread s p) (spread v p))) in
    let rgb := [part (fun c => fst (fst c)); part (fun c => snd (fst c)); part snd] in
    do arrays <- broadcast_arrays (match alpha with None => rgb | Some a => rgb ++ [a] end);
    do rgb_image <- stack arrays;
    from_front axis rgb_image.

  (** The stacked channels, lines 72-77.  Comparing None raises a TypeError, line 79. *)
  Definition rgb_arguments (red : image) (green blue alpha : option image) (axis : Z) : result image :=
    match green, blue with
    | None, None => to_front axis red
    | Some g, Some b => do l <- broadcast_arrays (match alpha with None => [red; g; b] | Some a => [red; g; b; a] end); stack l
    | _, _ => Err TypeError
    end.
  (** The channels of a pixel. *)
  Definition pixel (a : image) (p : list nat) : list N := map (fun c => iget a (c :: p)) (seq 0 (hd 0%nat (ishape a))).
  (** rgb2hsv, lines 79-114.  np.amax raises a ValueError when there are no channels, line 79; rgb_image[2] an IndexError when there are one or two, line 88. *)
  Definition rgb2hsv_array (red : image) (green blue alpha : option image) (axis : Z) : result image :=
    do rgb_image <- rgb_arguments red green blue alpha axis;
    let n := hd 0%nat (ishape rgb_image) in
    if (n =? 0)%nat then Err ValueError else
    if (n <? 3)%nat then Err IndexError else
    let part (f : N * N * N -> N) := Img (tl (ishape rgb_image)) (fun p => f (stacked2hsv N (pixel rgb_image p))) in
    let hsv := [part (fun c => fst (fst c)); part (fun c => snd (fst c)); part snd] in
    do hsv_image <- stack (match alpha with None => hsv | Some a => hsv ++ [a] end);
    from_front axis hsv_image.

  (** ** Unsigned 8-bit integers *)
  (** The difference of two of them. *)
  Definition sub8 (x y : Z) : Z := ((x - y) mod 256)%Z.
  Definition largest (l : list Z) : Z := match l with [] => 0%Z | x :: rest => fold_left Z.max rest x end.
  Definition least (l : list Z) : Z := match l with [] => 0%Z | x :: rest => fold_left Z.min rest x end.
  Fixpoint byte_from (channel : Z) (arr : list Z) (idx : Z) : Z :=
    match arr with [] => 0%Z | x :: rest => (x * z_of_bool (idx =? channel)%Z + byte_from (channel + 1) rest idx)%Z end.
  (** rgb2hsv, lines 79-108, for a pixel of channels from 0 to 255.  Divisions are of floating point numbers, as is the arithmetic of np.isclose. *)
  Definition bytes2hsv (rgb_image : list Z) : N * N * N :=
    let v := largest rgb_image in
    let s_x_v := sub8 v (least rgb_image) in
    let c k := nth k rgb_image 0%Z in
    let ch1 := ((c 0%nat <? c 1%nat) && (c 0%nat <=? c 2%nat))%Z in
    let ch2 := ((c 1%nat <? c 2%nat) && (c 1%nat <=? c 0%nat))%Z in
    let channel := (z_of_bool ch1 + 2 * z_of_bool ch2)%Z in
    let dominant := byte_from 0 rgb_image channel in
    let after := byte_from 0 rgb_image ((channel + 1) mod 3)%Z in
    let before := byte_from 0 rgb_image ((channel - 1) mod 3)%Z in
    let i := (2 * channel + z_of_bool (dominant <=? after)%Z * (1 - z_of_bool (isclose N #after #before)))%Z in
    let f := nmod (ndiv N #(sub8 dominant after) #((s_x_v + z_of_bool (isclose N #s_x_v #0)) mod 256)%Z) #1 in
    let h := ndiv N (nadd N #i f) #6 in
    let s := ndiv N #s_x_v #((v + z_of_bool (isclose N #v #0)) mod 256)%Z in
    (h, s, #v).
End Images.
Arguments Img {N} _ _. Arguments ishape {N}. Arguments iget {N}. Arguments idim {N}.
