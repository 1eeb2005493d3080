(** Vocabulary for the statements about the derived fields: the macroscopic Maxwell equations in SI units for fields with
    time dependence exp(-i omega t), and the constitutive relations of bi-anisotropic media. *)
From Coq Require Import Reals List Arith.
Require Import Verif.Base Verif.Cplx Verif.CSum Verif.Field Verif.Fourier_Model Verif.Fourier_Spec Verif.Vec_Model Verif.Vec_Spec.
Require Import Verif.Solver_Model Verif.Solver_Spec Verif.Derived_Model.
Import ListNotations.
Local Open Scope R_scope.
Local Open Scope C_scope.

(** The physical constants are positive and c^2 mu_0 epsilon_0 = 1. *)
Definition physical (u : si) : Prop :=
  (0 < c_light u)%R /\ (0 < mu_0 u)%R /\ (0 < epsilon_0 u)%R /\ (c_light u * c_light u * mu_0 u * epsilon_0 u = 1)%R.

(** curl E = i omega B. *)
Definition faraday (u : si) (g : raster) (k0 : R) (E B : vfield) : Prop :=
  vagree 3 (rshape g) (curl g 3 E) (fun c p => Ci * RtoC (k0 * c_light u) * B c p).
(** curl H = J - i omega D. *)
Definition ampere (u : si) (g : raster) (k0 : R) (H D J : vfield) : Prop :=
  vagree 3 (rshape g) (curl g 3 H) (fun c p => J c p - Ci * RtoC (k0 * c_light u) * D c p).
(** D = epsilon_0 eps E + xi H / c and B = zeta E / c + mu_0 mu H. *)
Definition constitutive_D (u : si) (eps xi : tensor) (E H : vfield) : vfield := fun c p =>
  RtoC (epsilon_0 u) * tapply eps E c p + tapply xi H c p / RtoC (c_light u).
Definition constitutive_B (u : si) (zeta mu : tensor) (E H : vfield) : vfield := fun c p =>
  tapply zeta E c p / RtoC (c_light u) + RtoC (mu_0 u) * tapply mu H c p.
Definition maxwell (u : si) (g : raster) (k0 : R) (eps xi zeta mu : tensor) (E H J : vfield) : Prop :=
  faraday u g k0 E (constitutive_B u zeta mu E H) /\ ampere u g k0 H (constitutive_D u eps xi E H) J.

(** The source term i omega mu_0 J of the wave equation. *)
Definition driving (u : si) (k0 : R) (J : vfield) : vfield := fun c p => Ci * RtoC (k0 * c_light u) * RtoC (mu_0 u) * J c p.

(** nu is the inverse of mu at every point. *)
Definition inverse_of (s : list nat) (mu nu : tensor) : Prop :=
  forall F : vfield, vagree 3 s (tapply mu (tapply nu F)) F /\ vagree 3 s (tapply nu (tapply mu F)) F.

(** xi nu + nu zeta, the part of the magneto-electric coupling that is not reciprocal. *)
Definition coupling (xi zeta nu : tensor) (F : vfield) : vfield := fun c p =>
  tapply xi (tapply nu F) c p + tapply nu (tapply zeta F) c p.
(** The operator maps only zero to zero. *)
Definition operator_injective (n : nat) (s : list nat) (op : vfield -> vfield) : Prop :=
  forall d, vagree n s (op d) (fun _ _ => 0) -> vagree n s d (fun _ _ => 0).
