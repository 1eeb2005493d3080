(** Vocabulary for the statements about the symmetries of the solution. *)
From Coq Require Import Reals List Arith Bool.
From Coquelicot Require Import Coquelicot.
Require Import Verif.Cplx Verif.CSum Verif.Field Verif.Fourier_Model Verif.Fourier_Spec Verif.Vec_Model Verif.Vec_Spec Verif.Solver_Model Verif.Solver_Spec.
Import ListNotations.
Local Open Scope R_scope.
Local Open Scope C_scope.

(** The field that the iteration computes: whatever the initial field is, the electric fields converge to E. *)
Definition computes (n : nat) (s : list nat) (k0 : R) (o : ops) (E : vfield) : Prop :=
  forall F, is_lim_seq (fun i => vnorm2 n s (fun c p => electric_field k0 (Nat.iter i (next_field o) F) c p - E c p)) 0%R.

(** a F + b G. *)
Definition combination (a b : C) (F G : vfield) : vfield := fun c p => a * F c p + b * G c p.
(** The grid with all lengths multiplied by the same number. *)
Definition magnified (a : R) (g : raster) : raster := {| rshape := rshape g; rstep := map (Rmult a) (rstep g) |}.

(** F . G summed over all points, without complex conjugate. *)
Definition product (n : nat) (s : list nat) (F G : vfield) : C := csum n (fun c => sum_over s (fun p => F c p * G c p)).
(** The tensor equals its transpose at every point. *)
Definition symmetric (s : list nat) (t : tensor) : Prop :=
  match t with TScalar _ => True | TMatrix m => forall p i j, inside s p -> (i < 3)%nat -> (j < 3)%nat -> m i j p = m j i p end.
(** All axes have an odd number of points. *)
Definition odd_sizes (s : list nat) : Prop := List.Forall (fun n => Nat.odd n = true) s.

(** The field at the point that is [q] further on the periodic grid. *)
Definition translated (s : list nat) (q : list nat) (F : vfield) : vfield := fun c p => F c (wrap_sub s p q).
Definition translated_tensor (s : list nat) (q : list nat) (t : tensor) : tensor :=
  match t with TScalar f => TScalar (fun p => f (wrap_sub s p q)) | TMatrix m => TMatrix (fun i j p => m i j (wrap_sub s p q)) end.

(** A scalar field as component [axis] of a vector field. *)
Definition polarized (axis : nat) (F : vfield) : vfield := fun c p => if Nat.eqb c axis then F 0%nat p else 0.
(** The grid with one more axis, of n points at distance d. *)
Definition extruded (g : raster) (n : nat) (d : R) : raster := {| rshape := rshape g ++ [n]; rstep := rstep g ++ [d] |}.
(** The same along the last axis. *)
Definition spread (F : vfield) : vfield := fun c p => F c (removelast p).
Definition spread_tensor (t : tensor) : tensor :=
  match t with TScalar f => TScalar (fun p => f (removelast p)) | TMatrix m => TMatrix (fun i j p => m i j (removelast p)) end.

(** The permittivities differ by at most d at every point: |(eps1 - eps2) u| <= d |u| for every vector u. *)
Definition near (n : nat) (s : list nat) (eps1 eps2 : tensor) (d : R) : Prop := forall p (u : nat -> C), inside s p ->
  (rsum n (fun i => Cmod (tapply eps1 (fun j _ => u j) i p - tapply eps2 (fun j _ => u j) i p)%C * Cmod (tapply eps1 (fun j _ => u j) i p - tapply eps2 (fun j _ => u j) i p)%C)
   <= d * d * rsum n (fun i => Cmod (u i) * Cmod (u i)))%R.

(** Problems for which the solution is known to exist: a grid of at most three dimensions for vector problems, loss at every point, no magnetic
    effects except for a uniform permeability m, and a small rounding unit eps. *)
Definition lossy_problem (eps : R) (g : raster) (k0 : R) (v : bool) (epsilon : tensor) (m loss : R) : Prop :=
  (0 < eps)%R /\ (2 * eps <= 1)%R /\ (0 < m)%R /\ (800 * sqrt eps * (m * m) < 1)%R /\ solvable v g k0 /\ fits v epsilon /\
  (0 < loss)%R /\ absorbs (if v then 3 else 1) (rshape g) epsilon loss.

(** The point with the opposite coordinate along one axis of the periodic grid; point number 0 stays where it is. *)
Fixpoint opposite (axis : nat) (s p : list nat) : list nat :=
  match axis, s, p with
  | O, n :: _, j :: p' => ((n - j) mod n)%nat :: p'
  | Datatypes.S a, _ :: s', j :: p' => j :: opposite a s' p'
  | _, _, _ => p
  end.
(** The mirror image of a field: a vector changes sign in the direction perpendicular to the mirror. *)
Definition mirrored (v : bool) (axis : nat) (s : list nat) (F : vfield) : vfield := fun c p =>
  if (v && Nat.eqb c axis)%bool then - F c (opposite axis s p) else F c (opposite axis s p).
Definition mirrored_tensor (axis : nat) (s : list nat) (t : tensor) : tensor :=
  match t with
  | TScalar f => TScalar (fun p => f (opposite axis s p))
  | TMatrix m => TMatrix (fun i j p => if xorb (Nat.eqb i axis) (Nat.eqb j axis) then - m i j (opposite axis s p) else m i j (opposite axis s p))
  end.

(** Two successive elements of a list in the other order. *)
Fixpoint exchange {A : Type} (axis : nat) (l : list A) : list A :=
  match axis, l with
  | O, x :: y :: l' => y :: x :: l'
  | Datatypes.S a, x :: l' => x :: exchange a l'
  | _, _ => l
  end.
(** The same for their numbers. *)
Definition exchange_index (axis i : nat) : nat := if Nat.eqb i axis then Datatypes.S axis else if Nat.eqb i (Datatypes.S axis) then axis else i.
(** The grid, a field, and a tensor when axes number [axis] and [axis + 1] change places. *)
Definition exchanged_grid (axis : nat) (g : raster) : raster := {| rshape := exchange axis (rshape g); rstep := exchange axis (rstep g) |}.
Definition exchanged (v : bool) (axis : nat) (F : vfield) : vfield := fun c p => F (if v then exchange_index axis c else c) (exchange axis p).
Definition exchanged_tensor (axis : nat) (t : tensor) : tensor :=
  match t with
  | TScalar f => TScalar (fun p => f (exchange axis p))
  | TMatrix m => TMatrix (fun i j p => m (exchange_index axis i) (exchange_index axis j) (exchange axis p))
  end.
