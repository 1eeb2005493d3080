(** What the cache and the array argument of a scattering matrix should do. *)
From Coq Require Import Reals List Arith ZArith Bool.
Require Import Verif.Base Verif.Cplx Verif.CSum Verif.Field Verif.Fourier_Model Verif.Vec_Model Verif.Solver_Model Verif.Derived_Model Verif.Run_Model.
Require Import Verif.Matrix_Model Verif.Matrix_Spec Verif.Modes_Model Verif.Modes_Spec Verif.Scatter_Model Verif.Scatter_Spec Verif.Stored_Model.
Import ListNotations.
Local Open Scope R_scope.
Local Open Scope C_scope.

(** A vector of n elements. *)
Definition vector_of (n : nat) (v : vec) : Prop := forall i, (n <= i)%nat -> v i = RtoC 0.
(** Vectors of the right length with amplitudes that the code does not take for zero (C85). *)
Definition proper_input (d : device) (v : vec) : Prop := vector_of (n_elements (optics_of d)) v /\ audible d v.
Definition proper_use (d : device) (a : use) : Prop := match a with UMultiply vs => List.Forall (proper_input d) vs | _ => True end.
(** The result that u is for v: what a calculation returns with any Solution for the material, whatever it was used for. *)
Definition direct (fuel : nat) (maxiter : option Z) (rtol : R) (d : device) (made : solution -> Prop) (v u : vec) : Prop :=
  forall y, made y -> exists w y', column fuel maxiter rtol d y v = Some (Ok w, y') /\ same (n_elements (optics_of d)) u w.
