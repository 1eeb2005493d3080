(** Plane waves, diffraction and transmission: the vocabulary for beams. *)
From Coq Require Import Reals List Arith.
Require Import Verif.Base Verif.Cplx Verif.CSum Verif.Field Verif.Fourier_Model Verif.Fourier_Spec Verif.Vec_Model Verif.Beam_Model.
Import ListNotations.
Local Open Scope R_scope.
Local Open Scope C_scope.

(** The wave vector of the Fourier component at index q, for wavenumber k and propagation along an axis: the square of its transverse part, *)
Definition kt2 (g : raster) (axis : nat) (q : list nat) : R := rsum 3 (fun c => if (c =? axis)%nat then 0 else kvec g c q * kvec g c q)%R.
(** its axial part (0 when the wave is evanescent), *)
Definition axial (g : raster) (axis : nat) (k : R) (q : list nat) : R := sqrt (Rmax 0 (k * k - kt2 g axis q)).
(** and all its components. *)
Definition wave_vector (g : raster) (axis : nat) (k : R) (c : nat) (q : list nat) : R := if (c =? axis)%nat then axial g axis k q else kvec g c q.
Definition propagates (g : raster) (axis : nat) (k : R) (q : list nat) : Prop := (kt2 g axis q <= k * k)%R.

(** The position along axis c of the grid point with index p. *)
Definition coordinate (g : raster) (first : nat -> R) (p : list nat) (c : nat) : R := (first c + nth c (rstep g) 0 * INR (nth c p 0%nat))%R.
(** The superposition of the plane waves exp(i k.r) with amplitudes F(k) / N, and its inverse. *)
Definition to_space (g : raster) (first : nat -> R) (F : sfield) : sfield := fun p =>
  sum_over (rshape g) (fun q => F q * cis (rsum 3 (fun c => kvec g c q * coordinate g first p c)%R)) / RtoC (INR (points (rshape g))).
Definition to_spectrum (g : raster) (first : nat -> R) (f : sfield) : sfield := fun q =>
  sum_over (rshape g) (fun p => f p * cis (- rsum 3 (fun c => kvec g c q * coordinate g first p c)%R)).
(** A spectrum after propagation over a distance d. *)
Definition diffract (g : raster) (axis : nat) (k d : R) (F : sfield) : sfield := fun q => F q * cis (d * axial g axis k q).
(** A spectrum after a thin layer with transmittance t. *)
Definition transmit (g : raster) (first : nat -> R) (t : sfield) (F : sfield) : sfield := to_spectrum g first (fun p => to_space g first F p * t p).
(** A section has one point along the propagation axis, and positive steps along extended axes. *)
Definition section_grid (g : raster) (axis : nat) : Prop :=
  length (rshape g) = 3%nat /\ length (rstep g) = 3%nat /\ nonempty (rshape g) /\ nth axis (rshape g) 0%nat = 1%nat /\ (axis < 3)%nat /\
  forall c, (c < 3)%nat -> (1 < nth c (rshape g) 0%nat)%nat -> nth c (rstep g) 0%R <> 0%R.
(** One step of the split-step method in a medium with refractive index n, where n0 is that of the background. *)
Definition transmittance (k : R) (n0 : C) (d : R) (n : sfield) : sfield := fun p =>
  let z := Ci * RtoC k * (n p / n0 - 1) * RtoC d in RtoC (exp (fst z)) * cis (snd z).
Definition split_step (g : raster) (first : nat -> R) (axis : nat) (k : R) (n0 : C) (d : R) (n : sfield) (F : sfield) : sfield :=
  diffract g axis k d (transmit g first (transmittance k n0 d n) F).
(** A medium of which the code does not neglect the structure: it has variations above the tolerance, or none and it is that of the background or
    differs from it by more than the tolerance. *)
Definition noticeable (g : raster) (n0 : C) (n : sfield) : Prop :=
  (exists p, inside (rshape g) p /\ (/ 100000000 + / 100000 * Cmod (n [0; 0; 0]%nat) < Cmod (n p - n [0; 0; 0]%nat)%C)%R) \/
  ((forall p, inside (rshape g) p -> n p = n [0; 0; 0]%nat) /\ (n [0; 0; 0]%nat = n0 \/ (/ 100000000 < Cmod (n [0; 0; 0]%nat / n0 - 1)%C)%R)).
(** A scalar spectrum that is not too weak. *)
Definition bright (s : list nat) (F : sfield) : Prop := exists q, inside s q /\ (/ 100000000 < Cmod (F q))%R.
(** The spectra behind successive layers; None is the background. *)
Definition through (g : raster) (first : nat -> R) (axis : nat) (k : R) (n0 : C) (d : R) (m : option sfield) (F : sfield) : sfield :=
  match m with None => diffract g axis k d F | Some n => split_step g first axis k n0 d n F end.
Fixpoint spectra (g : raster) (first : nat -> R) (axis : nat) (k : R) (n0 : C) (d : R) (media : list (option sfield)) (F : sfield) : list sfield :=
  match media with [] => [] | m :: media' => let F' := through g first axis k n0 d m F in F' :: spectra g first axis k n0 d media' F' end.
(** A distance that does not count as zero, or is. *)
Definition resolved (x : R) : Prop := x = 0%R \/ (/ 100000000 < Rabs x)%R.
Definition noticed (g : raster) (n0 : C) (m : option sfield) : Prop := match m with None => True | Some n => noticeable g n0 n end.
(** A vector spectrum is transverse: its wave vectors and fields are perpendicular. *)
Definition transverse (g : raster) (axis : nat) (k : R) (F : vfield) : Prop := forall q, csum 3 (fun c => RtoC (wave_vector g axis k c q) * F c q) = 0.
(** Histories without assignments and media, and the distance travelled. *)
Definition homogeneous (a : action) : Prop := match a with Propagate _ None | ReadFt | ReadField => True | _ => False end.
Definition moving (a : action) : Prop := match a with Propagate _ None => True | _ => False end.
Definition travelled (a : action) : R := match a with Propagate d _ => d | _ => 0%R end.
Definition total (l : list action) : R := fold_right (fun a r => travelled a + r)%R 0%R l.

(** ** Vector beams *)
(** The part of a vector spectrum that is perpendicular to the wave vectors. *)
Definition transverse_part (g : raster) (axis : nat) (k : R) (F : vfield) : vfield := fun c q =>
  F c q - RtoC (wave_vector g axis k c q) * csum 3 (fun i => RtoC (wave_vector g axis k i q) * F i q) / RtoC (rsum 3 (fun i => wave_vector g axis k i q * wave_vector g axis k i q)%R).
(** One slice: a thin layer, after which only the transverse part is kept, and diffraction. *)
Definition vector_through (g : raster) (first : nat -> R) (axis : nat) (k : R) (n0 : C) (d : R) (m : option sfield) (F : vfield) : vfield := fun c =>
  match m with
  | None => diffract g axis k d (F c)
  | Some n => diffract g axis k d (transverse_part g axis k (fun i => transmit g first (transmittance k n0 d n) (F i)) c)
  end.
Fixpoint vector_spectra (g : raster) (first : nat -> R) (axis : nat) (k : R) (n0 : C) (d : R) (media : list (option sfield)) (F : vfield) : list vfield :=
  match media with [] => [] | m :: media' => let F' := vector_through g first axis k n0 d m F in F' :: vector_spectra g first axis k n0 d media' F' end.
(** A vector spectrum that is not too weak. *)
Definition bright_vector (s : list nat) (F : vfield) : Prop := exists c q, (c < 3)%nat /\ inside s q /\ (/ 100000000 < Cmod (F c q))%R.
(** Reading and propagation through media without gain, or backwards through media without loss. *)
Definition passive (s : list nat) (n0 : C) (a : action) : Prop :=
  match a with
  | Propagate d None => True
  | Propagate d (Some n) => forall p, inside s p -> (0 <= d * snd (n p / n0)%C)%R
  | ReadFt | ReadField => True
  | SetFt _ | SetField _ => False
  end.
(** There and back again: through slices of given thickness and medium, and in reverse order. *)
Definition there (l : list (R * option sfield)) : list action := map (fun x => Propagate (fst x) (snd x)) l.
Definition back_again (l : list (R * option sfield)) : list action := map (fun x => Propagate (- fst x) (snd x)) (rev l).
