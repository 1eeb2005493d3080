(** Model of image registration: python/macromax/utils/ft/subpixel.py, Registration (lines 19-120), Reference (lines 123-280) and
    register (lines 357-377).
    Simplified: exact numbers; the reference has the shape of the subject, is not zero (its norm is a divisor in line 174), and all
    axes are used (axes and ndim not specified); the fast transforms are the sums of numpy's documentation. *)
From Coq Require Import Reals List Arith Bool ZArith.
From Flocq Require Import Core.
Require Import Verif.Base Verif.CSum Verif.Field Verif.Fourier_Model Verif.Vec_Model Verif.Modes_Model Verif.Shift_Model Verif.Cplx.
Import ListNotations.
Local Open Scope R_scope.
Local Open Scope C_scope.

(** The factor can be infinite (line 261). *)
Inductive scale : Type := Finite (z : C) | Infinite.

(** numpy.argmax: the first of the largest, in C-order. *)
Fixpoint first_max (h : list nat -> R) (best : list nat) (l : list (list nat)) : list nat :=
  match l with [] => best | p :: l' => first_max h (if Rltb (h best) (h p) then p else best) l' end.
Definition argmax (s : list nat) (h : list nat -> R) : list nat := match indices s with [] => [] | p :: l => first_max h p l end.

(** Reference.__init__, lines 173-174, with the Fourier transform of the reference. *)
Definition mean2 (s : list nat) (F : sfield) : R := (norm2 s F / INR (points s))%R.
Definition reference_norm (s : list nat) (Ref : sfield) : R := sqrt (mean2 s Ref).
Definition reference_conj (s : list nat) (Ref : sfield) : sfield := fun q => Cconj (Ref q) / RtoC (reference_norm s Ref).
(** Line 205. *)
Definition cross_ft (s : list nat) (Ref Sub : sfield) : sfield := fun q => reference_conj s Ref q * Sub q.

(** Lines 207-218: a location and the cross correlation there; precision a whole number. *)
Definition whole_location (s : list nat) (X : sfield) (precision : R) : list nat * C :=
  if Req_EM_T precision 0 then (map (fun _ => 0%nat) s, sum_over s X / RtoC (INR (points s)))
  else let l := argmax s (fun p => Cmod (ift s X p)) in (l, ift s X l).
Definition whole_shift (s : list nat) (l : list nat) : list R :=
  map (fun x => let '(n, i) := x in if (n / 2 <? i)%nat then (INR i + INR n)%R else INR i) (combine s l).

(** Lines 221-231: zero-padding to twice the shape. numpy.fft.fftshift, the assignment to the indices of the grid around the center,
    and numpy.fft.ifftshift, along one axis. *)
Definition padded_index (n i : nat) : option nat :=
  let u := ((i + 2 * n / 2) mod (2 * n))%nat in
  let first := (n - n / 2)%nat in
  if ((first <=? u) && (u <? first + n))%nat then Some ((u - first + (n - n / 2)) mod n)%nat else None.
Fixpoint padded_indices (s i : list nat) : option (list nat) :=
  match s, i with
  | n :: s', a :: i' => match padded_index n a, padded_indices s' i' with Some b, Some q => Some (b :: q) | _, _ => None end
  | _, _ => Some []
  end.
Definition padded (s : list nat) (X : sfield) : sfield := fun i => match padded_indices s i with Some q => X q | None => RtoC 0 end.
Definition twice (s : list nat) : list nat := map (fun n => (2 * n)%nat) s.
(** Lines 230-237. *)
Definition coarse (s : list nat) (X : sfield) : sfield := ift (twice s) (padded s X).
Fixpoint halves (d : nat) : R := match d with O => 1%R | S d' => (1 / 2 * halves d')%R end.
Definition coarse_location (s : list nat) (X : sfield) : list R * C :=
  let l := argmax (twice s) (fun p => Cmod (coarse s X p)) in
  (map (fun x => let '(n, i) := x in (IZR ((Z.of_nat i + Z.of_nat n) mod (2 * Z.of_nat n) - Z.of_nat n) * (1 / 2))%R) (combine s l),
   coarse s X l / RtoC (halves (length s))).

(** __zoom_ft, lines 268-280. The product of a matrix and an array acts on the last axis but one. *)
Fixpoint set_nth {A : Type} (i : nat) (x : A) (l : list A) : list A :=
  match l, i with [], _ => [] | _ :: l', O => x :: l' | y :: l', S i' => y :: set_nth i' x l' end.
Definition swap_first (a : nat) (l : list nat) : list nat := set_nth 0 (nth a l 0%nat) (set_nth a (nth 0 l 0%nat) l).
Definition zoom_axis (pixels : nat) (basis : nat -> nat -> C) (n a : nat) (x : list nat * sfield) : result (list nat * sfield) :=
  let sh := swap_first a (fst x) in
  let pos := (length sh - 2)%nat in
  if (nth pos sh 0 =? n)%nat then
    Ok (swap_first a (set_nth pos pixels sh),
        fun p => let p' := swap_first a p in csum n (fun j => basis (nth pos p' 0%nat) j * snd x (swap_first a (set_nth pos j p'))))
  else Err ValueError.
Definition zoom_basis (s : list nat) (precision : R) (offset : list R) (a l j : nat) : C :=
  cis (- ((INR l - nth a offset 0) * k_axis (nth a s 0%nat) (1 / precision) j)).
Definition zoom (s : list nat) (pixels : nat) (precision : R) (offset : list R) (X : sfield) : result (list nat * sfield) :=
  fold_left (fun x a => do y <- x; zoom_axis pixels (zoom_basis s precision offset a) (nth a s 0%nat) a y) (seq 0 (length s)) (Ok (s, X)).
(** Lines 239-253. Grid rounds the number of pixels up to at least 1 (grid.py 130). *)
Definition rounded (precision x : R) : R := (IZR (ZnearestE (x / precision)) * precision)%R.
Definition refine (s : list nat) (X : sfield) (precision : R) (start : list R) : result (list R * C) :=
  let shift := map (rounded precision) start in
  let size := Zceil (3 / 2 / precision) in
  let dft_shift := IZR (Zfloor (IZR size / 2)) in
  do z <- zoom s (Nat.max 1 (Z.to_nat size)) precision (map (fun x => (dft_shift + x / precision)%R) shift) X;
  let value := fun p => snd z p / RtoC (INR (points s)) in
  let l := argmax (fst z) (fun p => Cmod (value p)) in
  Ok (map (fun x => let '(d, i) := x in (d + (- INR i + dft_shift) * precision)%R) (combine shift l), value l).

(** Lines 215-253: shift and maximum of the cross correlation. *)
Definition whole (precision : R) : bool := near_zero (precision - IZR (ZnearestE precision)).
Definition locate (s : list nat) (X : sfield) (precision : R) : result (list R * C) :=
  if whole precision then let '(l, c) := whole_location s X precision in Ok (whole_shift s l, c)
  else let '(shift, c) := coarse_location s X in
       if Rltb precision (1 / 2) then refine s X precision shift else Ok (shift, c).

(** A Registration, lines 35-46. The error is None when it is not a number. *)
Record registration : Type := { g_shift : list R; g_factor : scale; g_error : option R; original_hat : option sfield; registered_hat : option sfield }.
(** Reference.register, lines 186-266, with the Fourier transforms of reference and subject. *)
Definition register_ft (s : list nat) (Ref Sub : sfield) (precision : R) : result registration :=
  do x <- locate s (cross_ft s Ref Sub) precision;
  let '(shift, peak) := x in
  let norm := sqrt (mean2 s Sub) in
  let cos_theta := Rmin 1 (Rabs (Cmod peak / norm)) in
  Ok {| g_shift := shift;
        g_factor := if near_zero (Cmod peak) then Infinite else Finite (RtoC (mean2 s Sub) / (Cconj peak * RtoC (reference_norm s Ref)));
        g_error := if Req_EM_T norm 0 then None else Some (sqrt (1 - cos_theta * cos_theta));
        original_hat := Some Sub; registered_hat := None |}.
(** register, lines 357-377. The default precision is 1/128 (line 148). *)
Definition point_image (s : list nat) : sfield := fun p => if idx_eqb p (map (fun _ => 0%nat) s) then RtoC 1 else RtoC 0.
Definition register (s : list nat) (subject reference : option sfield) (precision : option R) : result registration :=
  let image (x : option sfield) := match x with Some f => f | None => point_image s end in
  register_ft s (ft s (image reference)) (ft s (image subject)) (match precision with Some x => x | None => (1 / 128)%R end).

(** ** Registration *)
(** Lines 35-46. *)
Definition right_mask (s : list nat) (k : nat) : list bool := map (fun a => (length s <=? a + k)%nat) (seq 0 (length s)).
Definition make (s : list nat) (shift : list R) (factor : scale) (error : R) (original registered : option sfield) : registration :=
  {| g_shift := shift; g_factor := factor; g_error := Some error;
     original_hat := option_map (part_ft (right_mask s (length shift)) s) original;
     registered_hat := option_map (part_ft (right_mask s (length shift)) s) registered |}.
(** image_ft and original_ft, lines 80-91 and 105-112, and the state of the caches thereafter. Without any image, they call each other
    without end. A product with an infinite factor is not a number. *)
Definition divided (F : sfield) (k : scale) : sfield := fun q => match k with Finite z => F q / z | Infinite => RtoC 0 end.
Definition factor_vanishes (k : scale) : bool := match k with Finite z => near_zero (Cmod z) | Infinite => false end.
Definition image_ft (s : list nat) (g : registration) : result sfield :=
  match registered_hat g, original_hat g with
  | Some F, _ => Ok F
  | None, None => Err OtherException
  | None, Some G => if factor_vanishes (g_factor g) then Ok (fun _ => RtoC 0) else rmap (fun F => divided F (g_factor g)) (roll_ft s None (map Ropp (g_shift g)) G)
  end.
Definition original_ft (s : list nat) (g : registration) : result sfield :=
  match original_hat g, registered_hat g with
  | Some G, _ => Ok G
  | None, None => Err OtherException
  | None, Some F => match g_factor g with Finite z => rmap (fun G q => G q * z) (roll_ft s None (g_shift g) F) | Infinite => Err OtherException end
  end.
Definition keep_image (g : registration) (x : result sfield) : registration :=
  match x with Ok F => {| g_shift := g_shift g; g_factor := g_factor g; g_error := g_error g; original_hat := original_hat g; registered_hat := Some F |} | Err _ => g end.
Definition keep_original (g : registration) (x : result sfield) : registration :=
  match x with Ok G => {| g_shift := g_shift g; g_factor := g_factor g; g_error := g_error g; original_hat := Some G; registered_hat := registered_hat g |} | Err _ => g end.
(** image and original, lines 93-99 and 114-117. *)
Definition image (s : list nat) (g : registration) : result sfield := rmap (part_ift (right_mask s (length (g_shift g))) s) (image_ft s g).
Definition original (s : list nat) (g : registration) : result sfield := rmap (part_ift (right_mask s (length (g_shift g))) s) (original_ft s g).
(** The setter of shift, lines 55-63; and changes in place of the array of shifts that the getter of lines 48-53 returns. *)
Definition replace_shift (g : registration) (t : list R) : registration :=
  {| g_shift := t; g_factor := g_factor g; g_error := g_error g; original_hat := original_hat g; registered_hat := registered_hat g |}.
Definition set_shift (s : list nat) (g : registration) (t : list R) : registration :=
  match registered_hat g with
  | None => replace_shift g t
  | Some _ => match original_ft s g with
              | Ok G => {| g_shift := t; g_factor := g_factor g; g_error := g_error g; original_hat := Some G; registered_hat := None |}
              | Err _ => g
              end
  end.
(** What a user can do: read, assign to shift, assign to the elements of shift, and add to shift with +=. *)
Inductive use : Type := ReadImage | ReadOriginal | SetShift (t : list R) | SetElements (t : list R) | AddToShift (t : list R).
Definition used (s : list nat) (g : registration) (u : use) : registration :=
  match u with
  | ReadImage => keep_image g (image_ft s g)
  | ReadOriginal => keep_original g (original_ft s g)
  | SetShift t => set_shift s g t
  | SetElements t => replace_shift g t
  | AddToShift t => let t' := map (fun x => (fst x + snd x)%R) (combine (g_shift g) t) in set_shift s (replace_shift g t') t'
  end.
Definition after (s : list nat) (g : registration) (l : list use) : registration := fold_left (used s) l g.
