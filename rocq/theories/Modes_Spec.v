(** Plane waves on a grid. *)
From Coq Require Import Reals List Arith Bool ZArith.
Require Import Verif.Base Verif.Cplx Verif.CSum Verif.Field Verif.Fourier_Model Verif.Vec_Model Verif.Matrix_Model Verif.Modes_Model.
Import ListNotations.
Local Open Scope R_scope.
Local Open Scope C_scope.

(** Physically meaningful settings: at most two transverse axes, positive sizes, steps and wavenumber. *)
Definition valid (o : optics) : Prop :=
  length (rstep (transverse o)) = length (shape_of o) /\ (length (shape_of o) <= 2)%nat /\
  Forall (fun n => (0 < n)%nat) (shape_of o) /\ Forall (fun d => (0 < d)%R) (rstep (transverse o)) /\
  (0 < wavenumber o)%R /\ (0 <= tolerance o)%R.
(** The grid spacing is at most half a wavelength. *)
Definition sampled (o : optics) : Prop := Forall (fun d => (wavenumber o * d <= PI)%R) (rstep (transverse o)).

(** The signed frequencies of an index. *)
Fixpoint signed (s p : list nat) : list Z :=
  match s, p with n :: s', i :: p' => k_index n i :: signed s' p' | _, _ => [] end.
(** Raster-scan order, from negative to positive. *)
Fixpoint precedes (a b : list Z) : Prop :=
  match a, b with x :: a', y :: b' => (x < y)%Z \/ (x = y /\ precedes a' b') | _, _ => False end.

(** The component of the wave vector along axis 0 for transverse index m: k_x^2 + k_t^2 = k_0^2. *)
Definition k_axial (o : optics) (m : list nat) : R := sqrt (wavenumber o * wavenumber o - k2 (transverse o) m).
(** k dot r at index x along axis 0 and transverse index r. *)
Definition k_dot_r (o : optics) (m : list nat) (x : nat) (r : list nat) : R :=
  (k_axial o m * xpos o x +
   rsum (rndim (transverse o)) (fun i => kvec (transverse o) i m * (nth i (tfirst o) 0 + INR (nth i r 0%nat) * nth i (rstep (transverse o)) 1)))%R.
(** The superposition of plane waves that a vector stands for: the front modes have wave vector k, the back modes -k; the amplitude is
    divided by the square root of the cosine of the angle with axis 0. *)
Definition waves (o : optics) (v : vec) (c : nat) (x : nat) (r : list nat) : C :=
  csum (n_modes o) (fun j => polarize o j (fun p => element o v 0 j p) c / RtoC (sqrt (k_axial o (mode o j) / wavenumber o)) * cis (k_dot_r o (mode o j) x r)) +
  csum (n_modes o) (fun j => polarize o j (fun p => element o v 1 j p) c / RtoC (sqrt (k_axial o (mode o j) / wavenumber o)) * cis (- k_dot_r o (mode o j) x r)).

(** The number of elements of a vector. *)
Definition n_elements (o : optics) : nat := (2 * (n_modes o * n_pol o))%nat.
(** Each side of the vector is zero or has an element of more than 1e-8. *)
Definition significant (o : optics) (v : vec) (side : nat) : Prop :=
  let h := (n_modes o * n_pol o)%nat in
  (forall i, (i < h)%nat -> v (side * h + i)%nat = 0) \/ exists i, (i < h)%nat /\ (/ 100000000 < Cmod (v (side * h + i)%nat))%R.
(** Fields that agree on the plane at index x. *)
Definition agree_on (o : optics) (x : nat) (E F : vfield) : Prop := forall c r, inside (shape_of o) r -> E c (x :: r) = F c (x :: r).
Definition waves_field (o : optics) (v : vec) : vfield := fun c q => match q with [] => 0 | x :: r => waves o v c x r end.
