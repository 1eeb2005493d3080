(** Vocabulary for the statements about interrupted assignments. *)
From Coq Require Import Reals List Arith.
Require Import Verif.Base Verif.Cplx Verif.CSum Verif.Field Verif.Fourier_Model Verif.Vec_Model Verif.Solver_Model Verif.Derived_Model.
Local Open Scope R_scope.
Local Open Scope C_scope.

(** The operators are those of a medium that does not count as magnetic: there is no magnetic susceptibility left where the permeability is read. *)
Definition plain (o : ops) : Prop := o_magnetic o = false /\ exists f, o_chiHH o = TScalar f /\ tfirst (o_grid o) (TScalar f) = 0.
