(** Vocabulary for the statements about the forms in which materials can be given. *)
From Coq Require Import Reals List Arith.
Require Import Verif.Cplx Verif.CSum Verif.Field Verif.Fourier_Spec Verif.Vec_Model Verif.Solver_Model Verif.Solver_Spec Verif.Choice_Model Verif.Derived_Spec Verif.Magnetic_Spec.
Local Open Scope R_scope.
Local Open Scope C_scope.

(** Both tensors make the same of every vector at every point of the grid. *)
Definition acts_like (s : list nat) (t t' : tensor) : Prop := forall F : vfield, vagree 3 s (tapply t F) (tapply t' F).
(** What the code must find to treat a material as magnetic, with constants that are settled well above the rounding unit. *)
Definition taken_as_magnetic (eps : R) (g : raster) (k0 : R) (xi zeta mu : tensor) (settled : R * R) : Prop :=
  is_magnetic (rshape g) xi zeta mu = true /\
  (20 * sqrt (2 * sqrt eps) * ((1 + highest_frequency g k0) * (1 + highest_frequency g k0)) < snd settled * snd settled)%R.
(** Magnetic and chiral problems that take power from every electric field, and for which the code solves Maxwell's equations. *)
Definition dissipative_problem (eps : R) (g : raster) (k0 : R) (epsilon xi zeta mu : tensor) (loss : R) : Prop :=
  (0 < eps)%R /\ (2 * eps <= 1)%R /\ solvable true g k0 /\ (0 < k0)%R /\ (exists nu, inverse_of (rshape g) mu nu /\
    exists kappa : C, forall G, vagree 3 (rshape g) (coupling xi zeta nu G) (fun c p => kappa * G c p)) /\
  (0 < loss)%R /\ dissipates (rshape g) epsilon xi zeta mu loss.
