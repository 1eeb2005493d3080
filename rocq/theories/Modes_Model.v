(** Model of the modes of a ScatteringMatrix, python/macromax/matrix.py lines 448-480 (constructor), 528-610 (srcvec2freespace),
    612-648 (srcvec2source), 685-755 (detfield2detvec), 757-768 (detvec2srcvec) and 770-820 (_matvec).
    Simplified: exact numbers; the axes of the grid are given by shape, step and first position; the grid has at most three axes
    (k_vector_dir has three components); the fast Fourier transforms are the sums of numpy's documentation. *)
From Coq Require Import Reals List Arith Bool ZArith.
Require Import Verif.Base Verif.Cplx Verif.CSum Verif.Field Verif.Fourier_Model Verif.Vec_Model Verif.Matrix_Model.
Import ListNotations.
Local Open Scope R_scope.
Local Open Scope C_scope.

(** What the matrix knows: the transverse axes of the grid and their first positions, the positions along axis 0, the wavenumber, the
    tolerance of line 455, and the detector planes. *)
Record optics : Type := {
  transverse : raster; tfirst : list R; xpos : nat -> R; wavenumber : R; tolerance : R; front_detector : nat; back_detector : nat; vectorial : bool
}.

(** ** Modes *)
Definition Rltb (x y : R) : bool := if Rlt_dec x y then true else false.
Definition Rleb (x y : R) : bool := if Rle_dec x y then true else false.
(** grid.k.as_origin_at_center along an axis of n points, element q (utils/ft/grid.py 427-439). *)
Definition k_centred (n : nat) (st : R) (q : nat) : R := (2 * PI * IZR (Z.of_nat q - Z.of_nat (n / 2)) / (INR n * st))%R.
(** The loop of lines 456-458 at index q of the shifted transverse grid. *)
Fixpoint propagates (k_abs tol : R) (s : list nat) (st : list R) (q : list nat) : bool :=
  match s, st, q with
  | n :: s', d :: st', i :: q' =>
      let k := k_centred n d i in
      Rltb (Rabs k) (k_abs - tol) && propagates (sqrt (Rmax (k_abs * k_abs - k * k) 0)) tol s' st' q'
  | _, _, _ => true
  end.
(** All indices in raster-scan order. *)
Fixpoint indices (s : list nat) : list (list nat) :=
  match s with [] => [[]] | n :: s' => flat_map (fun i => map (cons i) (indices s')) (seq 0 n) end.
(** Lines 463-465: subtract half of the shape, modulo the shape. *)
Fixpoint unshift (s q : list nat) : list nat :=
  match s, q with
  | n :: s', i :: q' => Z.to_nat ((Z.of_nat i - Z.of_nat (n / 2)) mod Z.of_nat n) :: unshift s' q'
  | _, _ => []
  end.
(** mode_direction_indices, lines 461-467, as index lists instead of flat indices. *)
Definition shape_of (o : optics) : list nat := rshape (transverse o).
Definition modes (o : optics) : list (list nat) :=
  map (unshift (shape_of o)) (filter (propagates (wavenumber o) (tolerance o) (shape_of o) (rstep (transverse o))) (indices (shape_of o))).
Definition n_modes (o : optics) : nat := length (modes o).
Definition mode (o : optics) (j : nat) : list nat := nth j (modes o) [].
(** mode_direction_indices[::-1], lines 596 and 718. *)
Definition rmode (o : optics) (j : nat) : list nat := nth j (rev (modes o)) [].
Definition n_pol (o : optics) : nat := if vectorial o then 2%nat else 1%nat.

(** ** Directions and polarizations *)
(** k_vector_dir, lines 557-562 and 720-725: component 0 last; components beyond the axes of the grid are 0. *)
Definition direction_t (o : optics) (j i : nat) : R :=
  if (i <? rndim (transverse o))%nat then (kvec (transverse o) i (mode o j) / wavenumber o)%R else 0%R.
Definition cosine (o : optics) (j : nat) : R := sqrt (Rmax (1 - rsum 2 (fun i => direction_t o j i * direction_t o j i)%R) 0).
Definition direction (o : optics) (j c : nat) : R := match c with O => cosine o j | S i => direction_t o j i end.
(** __norm, lines 519-522, of the first n components. *)
Definition normalize (n : nat) (v : nat -> R) : nat -> R := fun i =>
  let l := sqrt (rsum n (fun i => v i * v i)%R) in (v i / (l + (if Req_EM_T l 0 then 1 else 0)))%R.
(** Lines 564-568 and 729-733. *)
Definition radial (o : optics) (j : nat) : nat -> R :=
  normalize 3 (fun c => direction o j 0 * direction o j c - (if (c =? 0)%nat then 1 else 0))%R.
Definition radial_mode (o : optics) (j : nat) : nat -> R := normalize 2 (direction_t o j).
(** Lines 579-585: the field vector of a mode with two polarization amplitudes, or the scalar. *)
Definition polarize (o : optics) (j : nat) (w : nat -> C) (c : nat) : C :=
  if vectorial o then
    let r := csum 2 (fun i => w i * RtoC (radial_mode o j i)) in
    r * RtoC (radial o j c) + match c with O => 0 | S i => w i - r * RtoC (radial_mode o j i) end
  else w 0%nat.
(** Lines 726-738: the polarization amplitudes of a field vector. *)
Definition unpolarize (o : optics) (j : nat) (e : nat -> C) (p : nat) : C :=
  if vectorial o then
    let l := csum 3 (fun c => e c * RtoC (direction o j c)) in
    let t := fun c => e c - l * RtoC (direction o j c) in
    let r := csum 3 (fun c => t c * RtoC (radial o j c)) in
    t (S p) - r * RtoC (radial o j (S p)) + r * RtoC (radial_mode o j p)
  else e 0%nat.

(** ** From vectors to fields *)
(** k dot first, lines 588 and 741. *)
Definition origin_phase (o : optics) (j : nat) : R :=
  (wavenumber o * rsum (rndim (transverse o)) (fun i => direction_t o j i * nth i (tfirst o) 0)%R)%R.
(** Lines 587-603 for one component: place the modes in Fourier space (the indices are distinct) and transform. *)
Definition spread (o : optics) (amp : nat -> C) (x : nat) : sfield :=
  ft (shape_of o) (fun q => csum (n_modes o) (fun j =>
    if idx_eqb q (rmode o j) then amp j * cis (origin_phase o j) * cis (wavenumber o * cosine o j * xpos o x) else 0)).
(** The element of a vector of shape [2, M, P], lines 546-550. *)
Definition element (o : optics) (v : vec) (side j p : nat) : C := v ((side * n_modes o + j) * n_pol o + p)%nat.
(** Line 567. *)
Definition amplitude (o : optics) (v : vec) (side j p : nat) : C := element o v side j p / RtoC (sqrt (cosine o j)).
(** numpy.allclose with 0, line 576. *)
Definition negligible (o : optics) (a : nat -> nat -> C) : bool :=
  forallb (fun j => forallb (fun p => Rleb (Cmod (a j p)) (/ 100000000)) (seq 0 (n_pol o))) (seq 0 (n_modes o)).
(** One side, lines 570-608. *)
Definition side_field (o : optics) (v : vec) (side : nat) : vfield := fun c q =>
  let a := amplitude o v side in
  if negligible o a then 0
  else
    match q with
    | [] => 0
    | x :: r =>
        if (side =? 0)%nat then spread o (fun j => polarize o j (a j) c) x r
        else Cconj (spread o (fun j => polarize o j (fun p => Cconj (a j p)) c) x r)
    end.
(** srcvec2freespace, lines 528-610. *)
Definition srcvec2freespace (o : optics) (v : vec) : vfield := fun c q => side_field o v 0 c q + side_field o v 1 c q.

(** The vector with the other side set to zero, lines 644-646 and 801. *)
Definition only_side (o : optics) (side : nat) (v : vec) : vec := fun i => if ((i / (n_modes o * n_pol o)) =? side)%nat then v i else 0.
(** srcvec2source, lines 612-648, with the common factor of lines 631-632 and the source planes as arguments. *)
Definition srcvec2source (o : optics) (factor : C) (front_source back_source : nat) (v : vec) : vfield := fun c q =>
  let w : vec := fun i => v i * (RtoC (cosine o ((i / n_pol o) mod n_modes o)) * factor) in
  match q with
  | [] => 0
  | x :: _ =>
      if (x =? back_source)%nat then srcvec2freespace o (only_side o 1 w) c q
      else if (x =? front_source)%nat then srcvec2freespace o (only_side o 0 w) c q else 0
  end.

(** ** From fields to vectors *)
(** detfield2detvec, lines 685-755; the transform along the detection volume of one layer does nothing. *)
Definition plane (o : optics) (side : nat) : nat := if (side =? 0)%nat then back_detector o else front_detector o.
Definition detected (o : optics) (E : vfield) (side j p : nat) : C :=
  let f c := ift (shape_of o) (fun r => if (side =? 0)%nat then E c (plane o side :: r) else Cconj (E c (plane o side :: r))) in
  let a := unpolarize o j (fun c => f c (rmode o j)) p * cis (- origin_phase o j) * cis (- (wavenumber o * cosine o j * xpos o (plane o side)))
           * RtoC (sqrt (cosine o j)) in
  if (side =? 0)%nat then a else Cconj a.
Definition detfield2detvec (o : optics) (E : vfield) : vec := fun i =>
  detected o E (i / (n_modes o * n_pol o)) ((i / n_pol o) mod n_modes o) (i mod n_pol o).

(** detvec2srcvec, lines 757-768: numpy.fft.fftshift of a vector of twice h elements, conjugated. *)
Definition detvec2srcvec (o : optics) (v : vec) : vec := fun i =>
  let h := (n_modes o * n_pol o)%nat in Cconj (v (if (i <? h)%nat then i + h else i - h)%nat).

(** ** Multiplication *)
(** One column, lines 789-811: solve gives the field for a source vector. *)
Definition outward (o : optics) (solve : vec -> vfield) (v : vec) : vfield := fun c q =>
  let incident side : C := if (hd 0%nat q =? plane o side)%nat then srcvec2freespace o (only_side o (1 - side) v) c q else 0 in
  solve v c q - incident 0%nat - incident 1%nat.
Definition scatter (o : optics) (solve : vec -> vfield) (v : vec) : vec := detfield2detvec o (outward o solve v).

(** ** Planes *)
(** Lines 470-480, with int for positive numbers. *)
Definition source_front (thickness step : R) : Z := (Int_part (thickness / step) + 1)%Z.
Definition source_back (n : Z) (thickness step : R) : Z := (n - Int_part (thickness / step) - 1)%Z.
Definition detector_front (thickness wavelength step : R) : Z := (Int_part ((thickness + wavelength) / step) + 1)%Z.
Definition detector_back (n : Z) (thickness wavelength step : R) : Z := (n - Int_part ((thickness + wavelength) / step) - 1)%Z.
