(** Vocabulary for the statements about homogeneous magnetic and chiral media. *)
From Coq Require Import Reals List.
Require Import Verif.Cplx Verif.CSum Verif.Field Verif.Vec_Spec.
Local Open Scope R_scope.
Local Open Scope C_scope.

(** The parts of a vector x along a real wavevector K, and with the circular polarisation of which the curl has the eigenvalue k, where k is plus or minus the length of K. *)
Definition along (K : nat -> R) (x : nat -> C) (c : nat) : C := let v i := RtoC (K i) in v c * dot3 v x / dot3 v v.
Definition handed (k : R) (K : nat -> R) (x : nat -> C) (c : nat) : C := (x c - along K x c + Ci * cross3 (fun i => RtoC (K i)) x c / RtoC k) / RtoC 2.
(** The response of a homogeneous medium to waves of which the curl has the eigenvalue k.  For xi = i kappa and zeta = - i kappa this is
    mu / ((k - k0 kappa)^2 - k0^2 epsilon mu): the wavenumbers of the two circular polarisations in a chiral medium are k0 (n + kappa) and k0 (n - kappa). *)
Definition response (k0 : R) (epsilon xi zeta mu : C) (k : R) : C :=
  mu / ((RtoC k + Ci * RtoC k0 * xi) * (RtoC k - Ci * RtoC k0 * zeta) - RtoC (k0 * k0) * epsilon * mu).
