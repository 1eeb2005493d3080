(** Vocabulary for the statements about the convergence in magnetic media. *)
From Coq Require Import Reals List Arith.
Require Import Verif.Cplx Verif.CSum Verif.Field Verif.Fourier_Spec Verif.Vec_Model Verif.Solver_Model.
Import ListNotations.
Local Open Scope R_scope.
Local Open Scope C_scope.

(** The power that the medium takes from any electric field E and magnetic field H, in units in which the constitutive relations are
    D = eps E + xi H and B = zeta E + mu H, is at least [loss] |E|^2 at every point: Im (E^H D + H^H B) >= loss |E|^2. *)
Definition dissipates (s : list nat) (eps xi zeta mu : tensor) (loss : R) : Prop :=
  forall p (E H : nat -> C), inside s p ->
    let at_p t V i := tapply t (fun j _ => V j) i p in
    (loss * rsum 3 (fun i => Cmod (E i) * Cmod (E i)) <=
     snd (csum 3 (fun i => Cconj (E i) * (at_p eps E i + at_p xi H i) + Cconj (H i) * (at_p zeta E i + at_p mu H i))%C))%R.

(** The highest spatial frequency on the grid in units of the wave number: (sum (pi / step)^2)^(1/2) / k0. *)
Definition highest_frequency (g : raster) (k0 : R) : R := (sqrt (fold_right (fun d sum => PI / d * (PI / d) + sum) 0 (rstep g)) / k0)%R.
