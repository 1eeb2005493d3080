(** What the arguments of a Beam state, in terms of the coordinates of the grid that is given. *)
From Coq Require Import Reals List Arith ZArith Bool.
Require Import Verif.Base Verif.Num Verif.Grid_Model Verif.Grid_Spec.
Require Import Verif.Cplx Verif.CSum Verif.Field Verif.Fourier_Model Verif.Fourier_Spec Verif.Vec_Model Verif.Array_Model Verif.Array_Spec Verif.Beam_Model Verif.Beam_Spec Verif.Launch_Model.
Import ListNotations.
Local Open Scope R_scope.
Local Open Scope C_scope.

(** A grid of one to three axes, with its points in increasing order and the centre at a sample, as is the default.  Extended axes have non-zero steps. *)
Definition plain (g : grid RN) : Prop :=
  Grid_Spec.regular g /\ (1 <= ndim RN g <= 3)%nat /\
  forall i, (i < ndim RN g)%nat -> origin_at_center RN g i = true /\ center_at_index RN g i = true /\ ((1 < Grid_Spec.points g i)%nat -> step_of g i <> 0%R).
(** Its axes are the last of three. *)
Definition offset (g : grid RN) : nat := (3 - ndim RN g)%nat.
(** The axis that is asked for, as one of three: the first of the grid by default; negative numbers count from the last. *)
Definition asked_axis (g : grid RN) (axis : option Z) (a : nat) : Prop :=
  match axis with
  | None => a = offset g
  | Some z => exists i, (i < ndim RN g)%nat /\ a = (offset g + i)%nat /\ (z = Z.of_nat i \/ z = Z.of_nat i - Z.of_nat (ndim RN g))%Z
  end.
(** The points of a section across the propagation axis a: their number along axis c and their spacing. *)
Definition across (g : grid RN) (a : nat) : raster :=
  {| rshape := map (fun c => if ((c =? a) || (c <? offset g))%nat then 1%nat else Grid_Spec.points g (c - offset g)%nat) [0; 1; 2]%nat;
     rstep := map (fun c => if (c <? offset g)%nat then 0%R else step_of g (c - offset g)%nat) [0; 1; 2]%nat |}.
(** The position of the point with index p along axis c, where crd are the coordinates of the given grid; 0 along the propagation axis. *)
Definition place (g : grid RN) (a : nat) (crd : nat -> list R) (p : list nat) (c : nat) : R :=
  if ((c =? a) || (c <? offset g))%nat then 0%R else nth (nth c p 0%nat) (crd (c - offset g)%nat) 0%R.
(** The phase of a plane wave there. *)
Definition phase (g : grid RN) (a : nat) (crd : nat -> list R) (q p : list nat) : R := rsum 3 (fun c => kvec (across g a) c q * place g a crd p c)%R.
(** The amplitudes of the plane waves that make up the field f. *)
Definition amplitudes (g : grid RN) (a : nat) (crd : nat -> list R) (f : sfield) : sfield := fun q =>
  sum_over (rshape (across g a)) (fun p => f p * cis (- phase g a crd q p)).
(** The field of plane waves of wavenumber k with these amplitudes, at the position z along the propagation axis. *)
Definition diffracted (g : grid RN) (a : nat) (crd : nat -> list R) (k z : R) (F : sfield) : sfield := fun p =>
  sum_over (rshape (across g a)) (fun q => F q * cis (phase g a crd q p + z * axial (across g a) a k q)%R) / RtoC (INR (Fourier_Model.points (rshape (across g a)))).

(** The wavenumber in the background medium, which has the refractive index n. *)
Definition asked_background (l : beam_args) (n : R) : Prop :=
  (0 < n)%R /\ match l_index l with Some x => x = RtoC n | None => l_permittivity l = RtoC (n * n) end.
Definition asked_k (l : beam_args) (n k : R) : Prop :=
  (0 < k)%R /\ match l_wavelength l with Some x => exists w, x = RtoC w /\ (0 < w)%R /\ (k * w = 2 * PI * n)%R | None => l_wavenumber l = RtoC (k / n) end.
(** The field that is asked for at the points of a section: an array that broadcasts, or a function of the last coordinates. *)
Definition means_field (g : grid RN) (a : nat) (crd : nat -> list R) (x : field_arg) (n : nat) (f : vfield) : Prop :=
  let s := rshape (across g a) in
  match x with
  | FArray y => n = nth 0 (lpad 4 (ashape y)) 1%nat /\ (n = 1%nat \/ n = 3%nat) /\ broadcasts y (n :: s) /\ forall c p, (c < n)%nat -> inside s p -> bget y (c :: p) = f c p
  | FFunction m h => (1 <= m <= 3)%nat /\ n = 1%nat /\ forall c p, inside s p -> f c p = h (map (place g a crd p) (skipn (3 - m) [0; 1; 2]%nat))
  | FVector m h => (1 <= m <= 3)%nat /\ n = 3%nat /\ forall c p, (c < 3)%nat -> inside s p -> f c p = h (map (place g a crd p) (skipn (3 - m) [0; 1; 2]%nat)) c
  end.
(** The spectrum that is asked for: it is given, or that of the field. *)
Definition asked_spectrum (g : grid RN) (a : nat) (crd : nat -> list R) (l : beam_args) (n : nat) (F : vfield) : Prop :=
  let s := rshape (across g a) in
  match l_spectrum l, l_field l with
  | Some y, _ => n = nth 0 (lpad 4 (ashape y)) 1%nat /\ (n = 1%nat \/ n = 3%nat) /\ broadcasts y (n :: s) /\ forall c q, (c < n)%nat -> inside s q -> bget y (c :: q) = F c q
  | None, Some x => exists f, means_field g a crd x n f /\ forall c q, (c < n)%nat -> inside s q -> F c q = amplitudes g a crd (f c) q
  | None, None => False
  end.
(** The part of the amplitudes that belongs to waves: all for scalars; what is perpendicular to the wave vectors for vectors. *)
Definition wave_part (g : grid RN) (a : nat) (k : R) (n : nat) (F : vfield) : vfield := if (n =? 1)%nat then F else transverse_part (across g a) a k F.
(** Not below the threshold of the code, which is only used for sections of several points. *)
Definition lit (s : list nat) (n : nat) (F : vfield) : Prop := (exists c q, (c < n)%nat /\ inside s q /\ (/ 100000000 < Cmod (F c q))%R) \/ (forall m, In m s -> m = 1%nat).
(** The positions along the propagation axis: they increase in steps that do not count as zero, and neither do the first position and the one before. *)
Definition ordered_axis (g : grid RN) (a : nat) (z : list R) : Prop :=
  (offset g <= a)%nat /\ let d := step_of g (a - offset g)%nat in (0 < d)%R /\ resolved d /\ resolved (nth 0 z 0 - d)%R /\ resolved (nth 0 z 0%R).
(** The amplitudes behind a thin layer of refractive index m, in a background of index n0, followed by a distance d; and those behind successive layers. *)
Definition layer (g : grid RN) (a : nat) (crd : nat -> list R) (k n0 d : R) (n : nat) (m : sfield) (F : vfield) : vfield := fun c q =>
  wave_part g a k n (fun c => amplitudes g a crd (fun p => diffracted g a crd k 0 (F c) p * transmittance k (RtoC n0) d m p)) c q * cis (d * axial (across g a) a k q)%R.
Fixpoint behind (g : grid RN) (a : nat) (crd : nat -> list R) (k n0 d : R) (n : nat) (media : list sfield) (F : vfield) : list vfield :=
  match media with [] => [] | m :: media' => let F' := layer g a crd k n0 d n m F in F' :: behind g a crd k n0 d n media' F' end.
(** Grids that differ in their flags only, and arguments that differ in the grid, the background or the wave only. *)
Definition flagged (g : grid RN) (fl oac cai : nat -> bool) : grid RN :=
  Build_grid RN (ndim RN g) (shape RN g) (step RN g) (center RN g) fl oac cai (multidimensional RN g) (short_step RN g).
Definition on_grid (l : beam_args) (g : grid RN) : beam_args :=
  {| l_grid := g; l_axis := l_axis l; l_wavenumber := l_wavenumber l; l_wavelength := l_wavelength l; l_permittivity := l_permittivity l; l_index := l_index l; l_field := l_field l; l_spectrum := l_spectrum l |}.
Definition with_background (l : beam_args) (permittivity : C) (index : option C) : beam_args :=
  {| l_grid := l_grid l; l_axis := l_axis l; l_wavenumber := l_wavenumber l; l_wavelength := l_wavelength l; l_permittivity := permittivity; l_index := index; l_field := l_field l; l_spectrum := l_spectrum l |}.
Definition with_wave (l : beam_args) (wavenumber : C) (wavelength : option C) : beam_args :=
  {| l_grid := l_grid l; l_axis := l_axis l; l_wavenumber := wavenumber; l_wavelength := wavelength; l_permittivity := l_permittivity l; l_index := l_index l; l_field := l_field l; l_spectrum := l_spectrum l |}.
