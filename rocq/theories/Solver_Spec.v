(** Vocabulary for the statements about the solver: the equations of physics on the periodic grid, in SI units, with
    the curl and the Laplacian that are validated on plane waves by the theorems of Vec_Properties. *)
From Coq Require Import Reals List Arith.
Require Import Verif.Cplx Verif.CSum Verif.Field Verif.Fourier_Model Verif.Fourier_Spec Verif.Vec_Model Verif.Vec_Spec Verif.Solver_Model.
Import ListNotations.
Local Open Scope R_scope.
Local Open Scope C_scope.

(** The Laplacian on the periodic grid. *)
Definition laplacian (g : raster) (E : vfield) : vfield := convolve (rshape g) (fun F c k => RtoC (- k2 g k) * F c k) E.

(** curl curl E for vector fields, minus the Laplacian for scalar fields. *)
Definition curl_curl_op (vectorial : bool) (g : raster) (E : vfield) : vfield :=
  if vectorial then curl g 3 (curl g 3 E) else fun c p => - laplacian g E c p.

(** beta curl curl E - k0^2 eps E = S at every point of the grid, where beta is the inverse permeability. *)
Definition wave_equation (vectorial : bool) (g : raster) (k0 beta : R) (eps : tensor) (E S : vfield) : Prop :=
  vagree (if vectorial then 3 else 1) (rshape g)
    (fun c p => RtoC beta * curl_curl_op vectorial g E c p - RtoC (k0 * k0) * tapply eps E c p) S.

(** The same grid in units of 1/k0, as the solver uses it. *)
Definition scaled (k0 : R) (g : raster) : raster := {| rshape := rshape g; rstep := map (Rmult k0) (rstep g) |}.

(** Scalar problems have scalar material properties; vector problems have at most three dimensions. *)
Definition fits (vectorial : bool) (t : tensor) : Prop :=
  match t with TScalar _ => True | TMatrix _ => vectorial = true end.
Definition solvable (vectorial : bool) (g : raster) (k0 : R) : Prop :=
  proper g /\ k0 <> 0%R /\ (vectorial = true -> (rndim g <= 3)%nat).

(** The tensor maps only zero to zero, at every point. *)
Definition injective (s : list nat) (t : tensor) : Prop :=
  forall p, inside s p ->
    match t with
    | TScalar f => f p <> 0
    | TMatrix m => forall v : nat -> C, (forall i, (i < 3)%nat -> csum 3 (fun j => m i j p * v j) = 0) -> forall j, (j < 3)%nat -> v j = 0
    end.

(** A field of zeros, and a uniform tensor. *)
Definition tzero : tensor := TScalar (fun _ => 0).
Definition tuniform (a : C) : tensor := TScalar (fun _ => a).

(** The medium absorbs at least [loss] at every point: Im (u^H eps u) >= loss |u|^2 for every vector u.
    A medium without gain absorbs at least 0. *)
Definition absorbs (n : nat) (s : list nat) (eps : tensor) (loss : R) : Prop :=
  forall p (u : nat -> C), inside s p ->
    (loss * rsum n (fun i => Cmod (u i) * Cmod (u i)) <= snd (csum n (fun i => Cmult (Cconj (u i)) (tapply eps (fun j _ => u j) i p))))%R.

(** |(eps / beta - alpha_r) u| <= r |u| for every vector u at every point. *)
Definition deviates (n : nat) (s : list nat) (eps : tensor) (beta alpha_r r : R) : Prop :=
  forall p (u : nat -> C), inside s p ->
    (rsum n (fun i => Cmod (tapply eps (fun j _ => u j) i p / RtoC beta - RtoC alpha_r * u i)%C *
                      Cmod (tapply eps (fun j _ => u j) i p / RtoC beta - RtoC alpha_r * u i)%C)
     <= r * r * rsum n (fun i => Cmod (u i) * Cmod (u i)))%R.
