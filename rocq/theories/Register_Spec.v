(** How well a translated and scaled subject resembles a reference. *)
From Coq Require Import Reals List Arith ZArith.
Require Import Verif.Base Verif.CSum Verif.Field Verif.Fourier_Model Verif.Fourier_Spec Verif.Vec_Model Verif.Shift_Spec Verif.Register_Model Verif.Cplx.
Import ListNotations.
Local Open Scope R_scope.
Local Open Scope C_scope.

(** The squared difference between the reference r and the subject f, moved back by t and multiplied by a. *)
Definition misfit (s : list nat) (r f : sfield) (t : list R) (a : C) : R := norm2 s (fun p => a * moved s (back t) f p - r p).
(** Not zero. *)
Definition lit (s : list nat) (f : sfield) : Prop := exists p, inside s p /\ f p <> 0.
(** Positions that differ by multiples of the shape. *)
Fixpoint same_place (s : list nat) (x y : list R) : Prop :=
  match s, x, y with
  | n :: s', u :: x', v :: y' => (exists c : Z, u = (v + IZR c * INR n)%R) /\ same_place s' x' y'
  | [], [], [] => True
  | _, _, _ => False
  end.
(** Translations by an integer number of points, and of half points, along all axes. *)
Definition integer_shift (s : list nat) (t : list R) : Prop := length t = length s /\ Forall (fun d => exists z, d = IZR z) t.
Definition half_shift (s : list nat) (t : list R) : Prop := length t = length s /\ Forall (fun d => exists z, d = (IZR z / 2)%R) t.
(** The autocorrelation of r at t is as large as at zero only where t is a multiple of the shape. *)
Definition same_peak (s : list nat) (r : sfield) (t : list R) : Prop := Cmod (ip s r (moved s t r)) = norm2 s r -> same_place s t (map (fun _ => 0%R) s).
(** The shift that a user expects after each step, ... *)
Definition new_shift (t : list R) (u : use) : list R := match u with SetShift t' | SetElements t' => t' | AddToShift d => both t d | ReadImage | ReadOriginal => t end.
Definition new_shifts (t : list R) (l : list use) : list R := fold_left new_shift l t.
(** ... with as many values as there are axes, and none that counts as zero although it is not. *)
Fixpoint resolved_history (s : list nat) (t : list R) (l : list use) : Prop :=
  (length t = length s /\ Forall2 resolved_shift s t) /\ match l with [] => True | u :: l' => resolved_history s (new_shift t u) l' end.
(** Reading and assigning; without, and with, adding to the shift. *)
Definition plain (u : use) : Prop := match u with ReadImage | ReadOriginal | SetShift _ => True | _ => False end.
Definition adding (u : use) : Prop := match u with SetElements _ => False | _ => True end.
(** Sizes up to 400 million times the precision, so that the phase of a shift by the precision does not count as zero. *)
Definition at_most (s : list nat) (precision : R) : Prop := Forall (fun n => (INR n <= 400000000 * precision)%R) s.
(** All that register promises: for no allowed shift, with any factor, is the difference smaller than the reported error times the norm of
    the reference; the reported shift and factor reach that error, and the image is the subject moved back and divided by the factor. The
    factor is infinite only for a negligible overlap, and the image is zero for a negligible factor. *)
Definition best (s : list nat) (r f : sfield) (allowed : list R -> Prop) (g : registration) : Prop :=
  exists e, g_error g = Some e /\ (0 <= e <= 1)%R /\ length (g_shift g) = length s /\
    (forall t a, allowed t -> (e * e * norm2 s r <= misfit s r f t a)%R) /\ (exists a, misfit s r f (g_shift g) a = (e * e * norm2 s r)%R) /\
    (g_factor g = Infinite /\ (Cmod (ip s r (moved s (back (g_shift g)) f)) <= / 100000000 * sqrt (norm2 s r))%R \/ exists z, g_factor g = Finite z /\ z <> 0 /\ misfit s r f (g_shift g) (/ z) = (e * e * norm2 s r)%R /\
      ((/ 100000000 < Cmod z)%R -> exists h, image s g = Ok h /\ agree s h (fun p => / z * moved s (back (g_shift g)) f p))).
(** Multiples of the shape. *)
Definition multiple (s : list nat) (d : list Z) : Prop := Forall2 (fun n x => (Z.of_nat n | x)%Z) s d.
(** The autocorrelation of r is as large as at zero only at multiples of the shape. *)
Definition single_peak (s : list nat) (r : sfield) : Prop := forall d, length d = length s -> Cmod (ip s r (cyclic s d r)) = norm2 s r -> multiple s d.
(** The reported shift: between 0 and half the shape, or the shape added to what exceeds half the shape. *)
Definition reported (s : list nat) (d : list Z) : list R :=
  map (fun x => let '(n, z) := x in let i := (z mod Z.of_nat n)%Z in if (Z.of_nat n / 2 <? i)%Z then IZR (i + Z.of_nat n) else IZR i) (combine s d).
(** Translations by multiples of x. *)
Definition multiples (s : list nat) (x : R) (t : list R) : Prop := length t = length s /\ Forall (fun d => exists z, d = (IZR z * x)%R) t.
(** The registered image is zero everywhere. *)
Definition blank (s : list nat) (g : registration) : Prop := exists h, image s g = Ok h /\ agree s h (fun _ => 0).
(** A shift that is allowed and at least as good as all others that are. *)
Definition optimal (s : list nat) (r f : sfield) (allowed : list R -> Prop) (t : list R) : Prop :=
  allowed t /\ forall t' a', allowed t' -> exists a, (misfit s r f t a <= misfit s r f t' a')%R.
(** Less than d apart along all axes. *)
Definition close (d : R) (t t' : list R) : Prop := Forall2 (fun x y => (Rabs (x - y) < d)%R) t t'.
