(** Model of the fields and densities that a Solution derives from the electric field:
    python/macromax/solver.py lines 789-995.
    Simplified: exact numbers; [u] holds the physical constants of scipy.constants; [F] is the internal field array, the
    electric field times the squared wavenumber. *)
From Coq Require Import Reals List Arith Bool.
Require Import Verif.Base Verif.Cplx Verif.CSum Verif.Field Verif.Fourier_Model Verif.Vec_Model Verif.Solver_Model.
Import ListNotations.
Local Open Scope R_scope.
Local Open Scope C_scope.

(** const.c, const.mu_0 and const.epsilon_0. *)
Record si : Type := { c_light : R; mu_0 : R; epsilon_0 : R }.
(** The angular_frequency property, lines 658-665. *)
Definition angular_frequency (u : si) (k0 : R) : R := (k0 * c_light u)%R.

(** The j property, lines 789-798, and its setter, lines 800-809: the source distribution for the new current. *)
Definition current_density (u : si) (o : ops) (k0 : R) : vfield := fun c p =>
  source_distribution o c p / (- Ci * RtoC (angular_frequency u k0) * RtoC (mu_0 u)).
Definition source_of_current (u : si) (k0 : R) (J : vfield) : vfield := fun c p =>
  J c p * (- Ci * RtoC (angular_frequency u k0) * RtoC (mu_0 u)).

(** The B property, lines 834-845. *)
Definition magnetic_field (u : si) (o : ops) (k0 : R) (F : vfield) : vfield := fun c p =>
  curl (o_grid o) (vector_length o) (electric_field k0 F) c p / (Ci * RtoC (c_light u)).

(** first, backend/__init__.py lines 195-197: the first element of the array. *)
Definition tfirst (g : raster) (t : tensor) : C :=
  match t with
  | TScalar f => f (repeat 0%nat (rndim g))
  | TMatrix m => m 0%nat 0%nat (repeat 0%nat (rndim g))
  end.
(** The H property, lines 865-893. *)
Definition magnetizing_field (u : si) (o : ops) (k0 : R) (F : vfield) : vfield :=
  let E := electric_field k0 F in
  let cE := curl (o_grid o) (vector_length o) E in
  let b := - Ci * im (o_alpha o) in
  if o_magnetic o then
    let mu_inv := tscale (RtoC (o_beta o)) (tsub (TScalar (fun _ => 1)) (tscale b (o_chiHH o))) in
    fun c p => Ci / (RtoC (mu_0 u) * RtoC (c_light u)) *
      (- tapply mu_inv cE c p + RtoC (o_beta o) * tapply (tscale b (o_chiHE o)) E c p)
  else
    let mu_inv := (1 - tfirst (o_grid o) (o_chiHH o) * b) * RtoC (o_beta o) in
    fun c p => mu_inv * (- Ci / (RtoC (mu_0 u) * RtoC (c_light u)) * cE c p).

(** The D property, lines 847-863. *)
Definition displacement_field (u : si) (o : ops) (k0 : R) (F : vfield) : vfield := fun c p =>
  (curl (o_grid o) (vector_length o) (magnetizing_field u o k0 F) c p * RtoC k0
   - RtoC (o_beta o) / (Ci * RtoC (angular_frequency u k0) * RtoC (mu_0 u)) * (o_source o c p * (im (o_alpha o) / Ci)))
  * (Ci / RtoC (angular_frequency u k0)).

(** The S property, lines 895-909. *)
Definition poynting (u : si) (o : ops) (k0 : R) (F : vfield) : nat -> list nat -> R := fun c p =>
  (/ 2 * fst (cross (vector_length o) (electric_field k0 F) (fun c p => Cconj (magnetizing_field u o k0 F c p)) c p))%R.
(** The divS property, lines 911-918. *)
Definition div_poynting (u : si) (o : ops) (k0 : R) (F : vfield) : result sfield :=
  div (o_grid o) (vector_length o) (fun c p => RtoC (poynting u o k0 F c p)).

(** The energy_density property, lines 920-936. *)
Definition energy_density (u : si) (o : ops) (k0 : R) (F : vfield) : list nat -> R := fun p =>
  ((rsum (vector_length o) (fun c => fst (Cmult (electric_field k0 F c p) (Cconj (displacement_field u o k0 F c p))))
    + rsum (vector_length o) (fun c => fst (Cmult (magnetic_field u o k0 F c p) (Cconj (magnetizing_field u o k0 F c p)))))
   * (/ 2 * / 2))%R.

(** The stress_tensor property, lines 938-958. *)
Definition stress_tensor (u : si) (o : ops) (k0 : R) (F : vfield) (i j : nat) : list nat -> R := fun p =>
  let E := electric_field k0 F in
  let H := magnetizing_field u o k0 F in
  let E2 := rsum (vector_length o) (fun c => (Cmod (E c p) * Cmod (E c p))%R) in
  let H2 := rsum (vector_length o) (fun c => (Cmod (H c p) * Cmod (H c p))%R) in
  fst (RtoC (/ 2) * (RtoC (epsilon_0 u) * outer E E i j p + outer H H i j p * RtoC (mu_0 u)
                     - RtoC (/ 2) * eye i j * RtoC (epsilon_0 u * E2 + H2 * mu_0 u)%R))%C.

(** The f property, lines 960-975: div contracts the first index of the stress tensor. *)
Definition force_density (u : si) (o : ops) (k0 : R) (F : vfield) (j : nat) : result (list nat -> R) :=
  do d <- div (o_grid o) (vector_length o) (fun i p => RtoC (stress_tensor u o k0 F i j p));
  Ok (fun p => (fst (d p) * k0)%R).

(** The torque property, lines 977-995. *)
Definition torque (u : si) (o : ops) (k0 : R) (F : vfield) : result (nat -> list nat -> R) :=
  if o_vectorial o then
    Ok (fun c => match c with
                 | 0%nat => stress_tensor u o k0 F 1 2
                 | 1%nat => stress_tensor u o k0 F 0 2
                 | _ => stress_tensor u o k0 F 0 1
                 end)
  else Err IndexError.
