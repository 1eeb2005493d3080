(** Interpolation, translation and cyclic shifts. *)
From Coq Require Import Reals List Arith ZArith.
Require Import Verif.Base Verif.Cplx Verif.CSum Verif.Field Verif.Fourier_Model Verif.Vec_Model.
Import ListNotations.
Local Open Scope R_scope.
Local Open Scope C_scope.

(** 2 pi (k_0 x_0 / n_0 + k_1 x_1 / n_1 + ...), for the signed frequencies k at index q and the position x. *)
Fixpoint angle (s q : list nat) (x : list R) : R :=
  match s, q, x with
  | n :: s', i :: q', u :: x' => (2 * PI * IZR (k_index n i) * u / INR n + angle s' q' x')%R
  | _, _, _ => 0%R
  end.
(** The value between the points of the grid at position x of the trigonometric polynomial through the samples f. *)
Definition interpolate (s : list nat) (f : sfield) (x : list R) : C :=
  sum_over s (fun q => ft s f q * cis (angle s q x)) / RtoC (INR (points s)).
(** The position of index p, shifted back by t. *)
Fixpoint behind (p : list nat) (t : list R) : list R :=
  match p, t with i :: p', d :: t' => (INR i - d)%R :: behind p' t' | _, _ => [] end.
(** f, translated by t. *)
Definition moved (s : list nat) (t : list R) (f : sfield) : sfield := fun p => interpolate s f (behind p t).
(** f, shifted cyclically by integer numbers of points: numpy.roll. *)
Fixpoint wrapped (s : list nat) (t : list Z) (p : list nat) : list nat :=
  match s, t, p with n :: s', d :: t', i :: p' => Z.to_nat ((Z.of_nat i - d) mod Z.of_nat n) :: wrapped s' t' p' | _, _, _ => [] end.
Definition cyclic (s : list nat) (t : list Z) (f : sfield) : sfield := fun p => f (wrapped s t p).
(** Sums and opposites of translations. *)
Definition both (t u : list R) : list R := map (fun x => (fst x + snd x)%R) (combine t u).
Definition back (t : list R) : list R := map Ropp t.
(** The plane wave with integer numbers of periods k along each axis. *)
Fixpoint plane_angle (s : list nat) (k : list Z) (x : list R) : R :=
  match s, k, x with n :: s', a :: k', u :: x' => (2 * PI * IZR a * u / INR n + plane_angle s' k' x')%R | _, _, _ => 0%R end.
Definition at_index (p : list nat) : list R := map INR p.
(** Frequencies that the grid can represent. *)
Definition represented (s : list nat) (k : list Z) : Prop := Forall2 (fun n a => - Z.of_nat n <= 2 * a < Z.of_nat n)%Z s k.
(** Shifts that do not count as zero, or are: the phase 2 pi d / n is resolved. *)
Definition resolved_shift (n : nat) (d : R) : Prop := d = 0%R \/ (/ 100000000 < Rabs d)%R /\ (/ 100000000 < Rabs (2 * PI * d / INR n))%R.
(** Shifts of the right-most axes, and of the left-most axes. *)
Definition on_right (s : list nat) (shift : list R) : list R := repeat 0%R (length s - length shift) ++ shift.
Definition on_left (s : list nat) (shift : list R) : list R := shift ++ repeat 0%R (length s - length shift).
