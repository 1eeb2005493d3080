(** Vocabulary for the statements about the solutions of Maxwell's equations in magnetic and chiral media. *)
From Coq Require Import Reals List Arith.
Require Import Verif.Cplx Verif.CSum Verif.Field Verif.Fourier_Model Verif.Fourier_Spec Verif.Vec_Model Verif.Vec_Spec Verif.Solver_Model Verif.Solver_Spec.
Require Import Verif.Choice_Model Verif.Derived_Model Verif.Derived_Spec Verif.Magnetic_Spec.
Import ListNotations.
Local Open Scope R_scope.
Local Open Scope C_scope.

(** The vector that the tensor makes of u at point p. *)
Definition at_point (t : tensor) (u : nat -> C) (p : list nat) (i : nat) : C := tapply t (fun j _ => u j) i p.
(** The scalar product without complex conjugate, and the squared length. *)
Definition dot (u v : nat -> C) : C := csum 3 (fun i => u i * v i).
Definition length2 (u : nat -> C) : R := rsum 3 (fun i => Cmod (u i) * Cmod (u i))%R.
(** A reciprocal medium: epsilon and mu are symmetric and xi is minus the transpose of zeta. *)
Definition reciprocal (s : list nat) (epsilon xi zeta mu : tensor) : Prop := forall p (u v : nat -> C), inside s p ->
  dot u (at_point epsilon v p) = dot (at_point epsilon u p) v /\ dot u (at_point mu v p) = dot (at_point mu u p) v /\ dot u (at_point xi v p) = - dot (at_point zeta u p) v.
(** The medium takes power from every electric and every magnetic field: Im (E^H D + H^H B) >= loss (|E|^2 + |H|^2). *)
Definition absorbs_both (s : list nat) (epsilon xi zeta mu : tensor) (loss : R) : Prop := forall p (E H : nat -> C), inside s p ->
  (loss * (length2 E + length2 H) <=
   snd (csum 3 (fun i => Cconj (E i) * (at_point epsilon E p i + at_point xi H p i) + Cconj (H i) * (at_point zeta E p i + at_point mu H p i))%C))%R.
(** The response of two media to the same fields differs by at most d times these fields. *)
Definition responses_near (s : list nat) (e1 xi1 zeta1 mu1 e2 xi2 zeta2 mu2 : tensor) (d : R) : Prop := forall p (E H : nat -> C), inside s p ->
  (length2 (fun i => at_point e1 E p i + at_point xi1 H p i - (at_point e2 E p i + at_point xi2 H p i))%C
   + length2 (fun i => at_point zeta1 E p i + at_point mu1 H p i - (at_point zeta2 E p i + at_point mu2 H p i))%C <= d * d * (length2 E + length2 H))%R.
(** The impedance of vacuum, and the strength of an electric and a magnetic field together: (|E|^2 + |Z H|^2)^(1/2). *)
Definition impedance (u : si) : R := (mu_0 u * c_light u)%R.
Definition strength (u : si) (s : list nat) (E H : vfield) : R := sqrt (vnorm2 3 s E + impedance u * impedance u * vnorm2 3 s H).

(** Magnetic and chiral problems for which the solution is known to exist: loss at every point, a magneto-electric coupling for which the code solves Maxwell's
    equations, and a small rounding unit eps. *)
Definition magnetic_problem (eps : R) (g : raster) (k0 : R) (epsilon xi zeta mu : tensor) (settled : R * R) (loss : R) : Prop :=
  (0 < eps)%R /\ (2 * eps <= 1)%R /\ solvable true g k0 /\ (0 < k0)%R /\ (exists nu, inverse_of (rshape g) mu nu /\
    exists kappa : C, forall G, vagree 3 (rshape g) (coupling xi zeta nu G) (fun c p => kappa * G c p)) /\
  is_magnetic (rshape g) xi zeta mu = true /\
  (20 * sqrt (2 * sqrt eps) * ((1 + highest_frequency g k0) * (1 + highest_frequency g k0)) < snd settled * snd settled)%R /\
  (0 < loss)%R /\ absorbs_both (rshape g) epsilon xi zeta mu loss.

(** The tensor with the opposite sign: what the magneto-electric coupling becomes in a mirror, where right-handed turns into left-handed. *)
Definition negated (t : tensor) : tensor :=
  match t with TScalar f => TScalar (fun p => - f p) | TMatrix m => TMatrix (fun i j p => - m i j p) end.
