(** Model of python/macromax/utils/display/hsv.py, complex2rgb.py and grid2extent.py.
    Arrays are processed elementwise: the model gives the value of one pixel.  Broadcasting and the position of the
    channel axis are in Image_Model. *)
From Coq Require Import ZArith List Bool Reals.
From Flocq Require Import Core.Raux.
From Verif Require Import Base Num Grid_Model.
From Coquelicot Require Import Complex.
Import ListNotations.

Section Hsv.
  Variable N : num.
  Local Notation "x + y" := (nadd N x y).
  Local Notation "x - y" := (nsub N x y).
  Local Notation "x * y" := (nmul N x y).
  Local Notation "x / y" := (ndiv N x y).
  Local Notation "# z" := (nofZ N z) (at level 2).
  Local Notation "a <= b" := (nleb N a b).
  Local Notation "a < b" := (nltb a b).

  (** [astype(np.int8)]: truncation towards zero, in two's complement. *)
  Definition int8 (x : N) : Z := ((ntrunc x + 128) mod 256 - 128)%Z.
  (** A boolean array used as a number. *)
  Definition bit (b : bool) : N := if b then #1 else #0.

  (** [hsv2rgb], lines 36-48. *)
  Definition hsv2rgb (hue saturation value : N) : N * N * N :=
    let hue := #6 * hue in
    let i := int8 hue in
    let f := hue - #i in
    let i := (i mod 6)%Z in
    let p := value * (#1 - saturation) in
    let q := value * (#1 - saturation * f) in
    let t := value * (#1 - (saturation * (#1 - f))) in
    let r := bit ((i =? 0)%Z || (i =? 5)%Z) * value + bit (i =? 1)%Z * q + bit ((i =? 2)%Z || (i =? 3)%Z) * p + bit (i =? 4)%Z * t in
    let g := bit (i =? 0)%Z * t + bit ((i =? 1)%Z || (i =? 2)%Z) * value + bit (i =? 3)%Z * q + bit (4 <=? i)%Z * p in
    let b := bit (i <=? 1)%Z * p + bit (i =? 2)%Z * t + bit ((i =? 3)%Z || (i =? 4)%Z) * value + bit (i =? 5)%Z * q in
    (r, g, b).
  (** The whole result, lines 47-52: the colour followed by the alpha channel, if any. *)
  Definition hsv2rgb_image (hue saturation value : N) (alpha : option N) : list N :=
    let '(r, g, b) := hsv2rgb hue saturation value in
    match alpha with None => [r; g; b] | Some a => [r; g; b; a] end.

  (** [np.isclose] with the default tolerances. *)
  Definition isclose (a b : N) : bool :=
    nabs (a - b) <= #1 / #100000000 + #1 / #100000 * nabs b.
  (** [per_pixel_select], lines 82-86. *)
  Fixpoint select_from (channel : Z) (arr : list N) (idx : Z) : N :=
    match arr with [] => #0 | x :: rest => x * bit (idx =? channel)%Z + select_from (channel + 1)%Z rest idx end.
  Definition per_pixel_select := select_from 0%Z.
  Definition amax (l : list N) : N := match l with [] => #0 | x :: rest => fold_left nmax rest x end.
  Definition amin (l : list N) : N := match l with [] => #0 | x :: rest => fold_left nmin rest x end.
  Definition z_of_bool (b : bool) : Z := if b then 1%Z else 0%Z.

  (** [rgb2hsv], lines 79-108, for the stacked channels [rgb_image] (three or four of them). *)
  Definition stacked2hsv (rgb_image : list N) : N * N * N :=
    let v := amax rgb_image in
    let s_x_v := v - amin rgb_image in
    let c k := nth k rgb_image #0 in
    let ch1 := (c 0%nat < c 1%nat) && (c 0%nat <= c 2%nat) in
    let ch2 := (c 1%nat < c 2%nat) && (c 1%nat <= c 0%nat) in
    let channel := (z_of_bool ch1 + 2 * z_of_bool ch2)%Z in
    let dominant := per_pixel_select rgb_image channel in
    let after := per_pixel_select rgb_image ((channel + 1) mod 3)%Z in
    let before := per_pixel_select rgb_image ((channel - 1) mod 3)%Z in
    let i := (2 * channel + z_of_bool (nleb N dominant after) * (1 - z_of_bool (isclose after before)))%Z in
    let f := nmod ((dominant - after) / (s_x_v + bit (isclose s_x_v #0))) #1 in
    let h := (#i + f) / #6 in
    let s := s_x_v / (v + bit (isclose v #0)) in
    (h, s, v).
  (** [rgb2hsv(red, green, blue, alpha)], lines 72-77 and 110-113. *)
  Definition rgb2hsv (red green blue : N) (alpha : option N) : list N :=
    let rgb_image := match alpha with None => [red; green; blue] | Some a => [red; green; blue; a] end in
    let '(h, s, v) := stacked2hsv rgb_image in
    match alpha with None => [h; s; v] | Some a => [h; s; v; a] end.
  (** [rgb2hsv(image)] with the channels in one array and no alpha argument. *)
  Definition rgb2hsv_image (rgb_image : list N) : list N := let '(h, s, v) := stacked2hsv rgb_image in [h; s; v].

  (** [np.clip(x, 0, 1)] *)
  Definition clip01 (x : N) : N := nmin (nmax x #0) #1.
  (** [complex2rgb], complex2rgb.py lines 45-56, given the amplitude after normalisation and the phase in turns [phase / (2 pi)]. *)
  Definition polar2rgb (amplitude turns : N) (inverted : bool) (alpha : option N) : list N :=
    let hue := turns + #1 / #2 in
    let clipped_amplitude := nmin amplitude #1 in
    let intensity := if inverted then nmax #0 (#1 - #1 / #2 * amplitude) else clipped_amplitude in
    let saturation := if inverted then clip01 amplitude else clip01 (#2 - amplitude) in
    let alpha := match alpha with None => None | Some a => Some (intensity * a) end in
    hsv2rgb_image hue saturation intensity alpha.

  (** The [dtype] argument: a floating point type, one of numpy's integer types (with its largest value), Python's
      [int], which is not a subclass of [np.integer]. *)
  Inductive rgb_dtype := DtFloat | DtNumpyInteger (max : Z) | DtPythonInt.
  (** complex2rgb.py lines 58-61: scaling and [astype]. *)
  Definition to_dtype (d : rgb_dtype) (x : N) : N :=
    match d with
    | DtFloat => x
    | DtNumpyInteger m => #(ntrunc (x * #m + #1 / #2))
    | DtPythonInt => #(ntrunc x)
    end.

  (** [grid2extent], grid2extent.py lines 25-36, for a sequence of ranges.  [ranges[:-3:-1]] is the last and the last but one. *)
  Definition extent_of (rng : list N) : result (N * N) :=
    if (length rng <? 2)%nat then Err ValueError else
      let step := nth 1 rng #0 - nth 0 rng #0 in
      Ok (nth 0 rng #0 - #1 / #2 * step, nth (length rng - 1) rng #0 + #1 / #2 * step).
  Fixpoint extents (origin_lower : bool) (idx : nat) (ranges : list (list N)) : result (list N) :=
    match ranges with
    | [] => Ok []
    | rng :: rest =>
        do fl <- extent_of rng;
        do others <- extents origin_lower (S idx) rest;
        let '(first, last) := fl in
        Ok (if negb origin_lower && (idx =? 1)%nat then last :: first :: others else first :: last :: others)
    end.
  Definition grid2extent_ranges (ranges : list (list N)) (origin_lower : bool) : result (list N) :=
    extents origin_lower 0 (firstn 2 (rev ranges)).
  (** The same for a Grid, grid2extent.py lines 21-22: [ranges[:-3:-1]] is [Grid.__getitem__] with a slice, which selects axes of a
      multi-dimensional grid and coordinates of any other (grid.py, lines 537-563). *)
  Definition grid2extent_grid (g : grid N) (origin_lower : bool) : result (list N) :=
    if multidimensional N g then
      if short_step N g && (1 <? ndim N g)%nat then Err IndexError
      else extents origin_lower 0 (firstn 2 (rev (map (axis_range N g) (seq 0 (ndim N g)))))
    else extents origin_lower 0 (map (fun x => [x]) (firstn 2 (rev (axis_range N g 0%nat)))).
End Hsv.

(** [np.angle], in (-pi, pi]; zero for zero.  (The sign of a floating-point zero is not modelled.) *)
Definition np_angle (z : C) : R :=
  if Req_EM_T (Cmod z) 0 then 0%R
  else if Rle_dec 0 (snd z) then acos (fst z / Cmod z) else (- acos (fst z / Cmod z))%R.
Definition max_abs (image : list C) : R := fold_right (fun z m => Rmax (Cmod z) m) 0%R image.
(** complex2rgb.py, lines 33-45: the amplitude after normalisation of the image. *)
Definition amplitude (normalization : option R) (image : list C) (z : C) : R :=
  match normalization with
  | None => Cmod z
  | Some n =>
      if Rlt_dec 0 n then
        if Rlt_dec 0 (max_abs image) then (Cmod z * (n / max_abs image))%R else Cmod z
      else Cmod z
  end.
(** [complex2rgb], all of it: the channels of each pixel. *)
Definition complex2rgb (image : list C) (normalization : option R) (inverted : bool) (alpha : option R) (dtype : rgb_dtype) : list (list R) :=
  map (fun z => map (to_dtype RN dtype)
        (polar2rgb RN (amplitude normalization image z) (np_angle z / (2 * PI))%R inverted alpha)) image.
