(** Vocabulary for the statements about vector calculus: plane waves that fit the periodic grid, the textbook dot and
    cross products, and the wave vector with zeros along the missing axes. *)
From Coq Require Import Reals List Arith.
Require Import Verif.Cplx Verif.CSum Verif.Field Verif.Fourier_Model Verif.Vec_Model.
Import ListNotations.
Local Open Scope R_scope.
Local Open Scope C_scope.

(** A raster with a positive number of points and a non-zero step for each axis. *)
Definition proper (g : raster) : Prop :=
  length (rstep g) = length (rshape g) /\ Forall (fun n => (0 < n)%nat) (rshape g) /\ Forall (fun d => d <> 0%R) (rstep g).

(** Component [axis] of the wave vector with number m; zero for axes that the grid does not have. *)
Definition wavevector (g : raster) (m : list nat) (axis : nat) : R := if Nat.ltb axis (rndim g) then kvec g axis m else 0%R.
(** The position of a grid point relative to the first, along one axis. *)
Definition position (g : raster) (p : list nat) (axis : nat) : R := (INR (nth axis p 0%nat) * nth axis (rstep g) 1)%R.
(** The plane wave exp(i k.x) for wave vector number m. *)
Definition plane_wave (g : raster) (m p : list nat) : C :=
  cis (rsum (rndim g) (fun axis => (wavevector g m axis * position g p axis)%R)).

(** Textbook dot and cross product of triples. *)
Definition dot3 (k : nat -> C) (a : nat -> C) : C := k 0%nat * a 0%nat + k 1%nat * a 1%nat + k 2%nat * a 2%nat.
Definition cross3 (a b : nat -> C) (c : nat) : C :=
  match c with
  | 0%nat => a 1%nat * b 2%nat - a 2%nat * b 1%nat
  | 1%nat => a 2%nat * b 0%nat - a 0%nat * b 2%nat
  | _ => a 0%nat * b 1%nat - a 1%nat * b 0%nat
  end.
Definition origin (g : raster) : list nat := repeat 0%nat (rndim g).
