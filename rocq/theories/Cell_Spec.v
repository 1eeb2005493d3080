(** Vocabulary for the statements about periodic structures, homogeneous media, and the wavelength. *)
From Coq Require Import Reals List Arith Bool.
Require Import Verif.Cplx Verif.CSum Verif.Field Verif.Fourier_Model Verif.Vec_Model Verif.Solver_Model.
Import ListNotations.
Local Open Scope R_scope.
Local Open Scope C_scope.

(** Element by element products: the shape of a grid that is repeated r times along each axis. *)
Fixpoint times (r s : list nat) : list nat := match r, s with a :: r', n :: s' => (a * n)%nat :: times r' s' | _, _ => [] end.
Definition repeated_grid (r : list nat) (g : raster) : raster := {| rshape := times r (rshape g); rstep := rstep g |}.
(** One number of repetitions, at least 1, for each axis. *)
Definition repeats (r s : list nat) : Prop := length r = length s /\ List.Forall (fun a => (0 < a)%nat) r.
(** The point of the unit cell that corresponds to a point of the repeated grid. *)
Fixpoint in_cell (s p : list nat) : list nat := match s, p with n :: s', j :: p' => (j mod n)%nat :: in_cell s' p' | _, _ => [] end.
(** A field and a tensor that are the same in all cells. *)
Definition repeated (s : list nat) (F : vfield) : vfield := fun c p => F c (in_cell s p).
Definition repeated_tensor (s : list nat) (t : tensor) : tensor :=
  match t with TScalar f => TScalar (fun p => f (in_cell s p)) | TMatrix m => TMatrix (fun i j p => m i j (in_cell s p)) end.
