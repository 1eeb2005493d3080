(** Vocabulary for the statements about the permeability of Solutions to which permittivities are assigned. *)
From Coq Require Import Reals List.
Require Import Verif.Base Verif.Cplx Verif.Field Verif.Vec_Model Verif.Solver_Model Verif.Derived_Model Verif.Derived_Spec Verif.Run_Model Verif.Run_Spec Verif.Material_Spec Verif.Drift_Model.
Import ListNotations.
Local Open Scope R_scope.
Local Open Scope C_scope.

(** The Solution is used in ways that do not change the material, and the code treats it as magnetic when a permittivity is assigned. *)
Definition ordinary (r : list op * assignment) : Prop :=
  Forall keeps_material (fst r) /\ a_magnetic (snd r) = true /\ snd (a_alpha (snd r)) <> 0%R /\ a_beta (snd r) <> 0%R.
(** The last source that was assigned before the last permittivity. *)
Definition sources (u : si) (k0 : R) (l : list (list op * assignment)) (S : vfield) : vfield := fold_left (fun S r => last_source u k0 (fst r) S) l S.
(** The permeability with x times the susceptibility of the bound. *)
Definition bounded_mu (mu : tensor) (chi : sfield) (x : R) : tensor := plus_isotropic mu (fun p => RtoC x * chi p).
Definition invertible (s : list nat) (t : tensor) : Prop := exists nu, inverse_of s t nu.
(** The permittivity less the susceptibility of the bound, if there is one. *)
Definition less (t : tensor) (chi : option sfield) : tensor := match chi with None => t | Some x => plus_isotropic t (fun p => - x p) end.
