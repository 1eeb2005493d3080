(** Vocabulary for histories in which the permittivity of magnetic and chiral media changes. *)
From Coq Require Import Reals List.
Require Import Verif.Base Verif.Cplx Verif.Field Verif.Vec_Model Verif.Solver_Model Verif.Solver_Spec Verif.Derived_Model Verif.Derived_Spec Verif.Choice_Model Verif.Material_Spec Verif.Run_Model Verif.Run_Spec Verif.Magnetic_Spec Verif.Swap_Model Verif.Swap_Spec.
Import ListNotations.
Local Open Scope R_scope.

(** The numbers that the code settles on are well above the rounding unit. *)
Definition precise (eps : R) (g : raster) (k0 : R) (settled : R * R) : Prop :=
  20 * sqrt (2 * sqrt eps) * ((1 + highest_frequency g k0) * (1 + highest_frequency g k0)) < snd settled * snd settled.
(** The medium without gain in which every current has fields. *)
Definition magnetic_admissible (u : si) (g : raster) (k0 : R) (e x z m : tensor) : Prop :=
  dissipates (rshape g) e x z m 0 /\ forall J, exists E H, maxwell u g k0 e x z m E H J.
(** Steps that assign a new permittivity only if that, without chi, is admissible. *)
Definition magnetic_step (u : si) (eps : R) (g : raster) (k0 : R) (x z m : tensor) (chi : list nat -> C) (a : step) : Prop :=
  match a with Do a => keeps_material a | Assign t settled => precise eps g k0 settled /\ magnetic_admissible u g k0 (minus_isotropic t chi) x z m end.
