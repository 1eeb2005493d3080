(** Vocabulary for histories in which the permittivity changes. *)
From Coq Require Import Reals List.
Require Import Verif.Base Verif.Cplx Verif.Field Verif.Fourier_Spec Verif.Vec_Model Verif.Solver_Model Verif.Solver_Spec Verif.Solver_Convergence Verif.Derived_Model Verif.Material_Spec Verif.Run_Model Verif.Run_Spec Verif.Swap_Model.
Import ListNotations.
Local Open Scope R_scope.
Local Open Scope C_scope.

(** The last source that was assigned, directly or as a current density. *)
Definition step_source (u : si) (k0 : R) (S : vfield) (a : step) : vfield := match a with Do a => assigned_source u k0 S a | Assign _ _ => S end.
Definition latest_source (u : si) (k0 : R) (l : list step) (S : vfield) : vfield := fold_left (step_source u k0) l S.
(** The medium without gain in which every source has a field. *)
Definition admissible (v : bool) (g : raster) (k0 m : R) (t : tensor) : Prop :=
  absorbs (if v then 3 else 1) (rshape g) t 0 /\ forall S : vfield, exists E, wave_equation v g k0 (/ m) t E S.
(** The permittivity without the susceptibility chi. *)
Definition minus_isotropic (t : tensor) (chi : list nat -> C) : tensor := plus_isotropic t (fun p => - chi p).
(** Steps that assign a new permittivity only if that, without chi, is admissible. *)
Definition admissible_step (v : bool) (g : raster) (k0 m : R) (chi : list nat -> C) (a : step) : Prop :=
  match a with Do a => keeps_material a | Assign t _ => fits v t /\ admissible v g k0 m (minus_isotropic t chi) end.
