(** What a scattering matrix should be. *)
From Coq Require Import Reals List Arith ZArith Bool.
Require Import Verif.Base Verif.Cplx Verif.CSum Verif.Field Verif.Fourier_Model Verif.Vec_Model Verif.Solver_Model Verif.Solver_Spec Verif.Derived_Model Verif.Run_Model.
Require Import Verif.Matrix_Model Verif.Modes_Model Verif.Modes_Spec Verif.Scatter_Model.
Import ListNotations.
Local Open Scope R_scope.
Local Open Scope C_scope.

(** The number of components of the field. *)
Definition components (d : device) : nat := if is_vectorial d then 3%nat else 1%nat.
(** The layout makes sense: a proper grid, detectors on the grid, and sources whose amplitudes are not below the amplitudes asked
    for (the amplitude is 2 k_0 cos / step: in metres, this is of the order of 1e14). *)
Definition well_laid (d : device) : Prop :=
  solvable (is_vectorial d) (device_grid d) (k_vacuum d) /\ valid (optics_of d) /\ (0 < step_x d)%R /\
  (front_detector (optics_of d) < size_x d)%nat /\ (back_detector (optics_of d) < size_x d)%nat /\
  (forall j, (j < n_modes (optics_of d))%nat -> (1 <= cosine (optics_of d) j * (2 * k_vacuum d / step_x d))%R).
(** A Solution for a non-magnetic material with a bound (whose susceptibility is included in eps), whatever its history: its field,
    source, and counters are arbitrary. *)
Definition made_of (d : device) (alpha : C) (beta : R) (eps mu : tensor) (chi : option sfield) (x : solution) : Prop :=
  Run_Model.wavenumber x = k_vacuum d /\ bound_chi x = chi /\
  exists S : vfield, operators x = prepare (scaled (k_vacuum d) (device_grid d)) (is_vectorial d) false alpha beta eps tzero tzero mu S.
(** The medium absorbs, everywhere, and the preconditioner constants suit it. *)
Definition lossy (d : device) (alpha : C) (beta : R) (eps mu : tensor) : Prop :=
  fits (is_vectorial d) eps /\ fits (is_vectorial d) mu /\ (0 < snd alpha)%R /\ (0 < beta)%R /\
  exists loss rho, (0 < loss)%R /\ (0 <= rho < 1)%R /\ absorbs (components d) (size_x d :: shape_of (optics_of d)) eps loss /\
    deviates (components d) (size_x d :: shape_of (optics_of d)) eps beta (fst alpha) (rho * snd alpha)%R.
(** The field that satisfies the wave equation for the sources of an input vector. *)
Definition exact_field (d : device) (beta : R) (eps : tensor) (v : vec) (E : vfield) : Prop :=
  wave_equation (is_vectorial d) (device_grid d) (k_vacuum d) beta eps E (source_of d v).
(** The output vector: detection of that field minus the incident waves. *)
Definition exact_output (d : device) (v : vec) (E : vfield) : vec := scatter (optics_of d) (fun _ => E) v.
(** Input vectors whose amplitudes are not all negligible on a side where they are not zero. *)
Definition audible (d : device) (v : vec) : Prop := significant (optics_of d) v 0 /\ significant (optics_of d) v 1.
(** The size of a field. *)
Definition strength (d : device) (E : vfield) : R := sqrt (vnorm2 (components d) (size_x d :: shape_of (optics_of d)) E).
(** Solutions with the same material properties: only the source, the field, and the counters can differ. *)
Definition same_material (x y : solution) : Prop :=
  Run_Model.wavenumber x = Run_Model.wavenumber y /\ bound_chi x = bound_chi y /\ o_grid (operators x) = o_grid (operators y) /\
  o_vectorial (operators x) = o_vectorial (operators y) /\ o_magnetic (operators x) = o_magnetic (operators y) /\
  o_alpha (operators x) = o_alpha (operators y) /\ o_beta (operators x) = o_beta (operators y) /\
  o_chiEE (operators x) = o_chiEE (operators y) /\ o_chiEH (operators x) = o_chiEH (operators y) /\
  o_chiHE (operators x) = o_chiHE (operators y) /\ o_chiHH (operators x) = o_chiHH (operators y).
