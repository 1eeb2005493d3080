(** Optional packages: C162. *)
From Coq Require Import String List.
Require Import Verif.Base Verif.Import_Model Verif.Import_Spec Verif.Import_Proofs.
Import ListNotations.
Local Open Scope string_scope.

(** C162.  Whichever of the optional packages are installed, as long as those work, the import succeeds and the Fourier transforms are those of the
    fastest one; no environment variable but those for the number of threads is changed; and back-ends can be made, that use pyfftw when it is there. *)
Theorem import_partial : forall m e, clean m -> exists p e', import_ft m e = Ok (p, e') /\ preferred m p /\ same_but thread_settings e e' /\
  exists b, back_end_numpy m e = Ok (b, e') /\ (b = true <-> pyfftw m = Works).
Proof. exact import_clean. Qed.
Print Assumptions import_partial.

(** C162.  A package mkl_fft that is installed but cannot be loaded prevents the import, although numpy could be used; only for mkl itself this is caught. *)
Theorem import_broken_refuted : forall m e, mkl m = ModuleNotFound -> mkl_fft m = RaisesImportError -> import_ft m e = Err ImportError.
Proof. exact import_broken. Qed.
Print Assumptions import_broken_refuted.

(** C162.  The same for pyfftw, also when a back-end is made. *)
Theorem import_broken_fftw_refuted : forall m e, mkl m = ModuleNotFound -> mkl_fft m = ModuleNotFound -> pyfftw m = RaisesImportError ->
  import_ft m e = Err ImportError /\ back_end_numpy m e = Err ImportError.
Proof. exact import_broken_fftw. Qed.
Print Assumptions import_broken_fftw_refuted.

(** C162.  A TypeError of pyfftw is caught when the package is imported, but not when a back-end is made. *)
Theorem import_type_error_refuted : forall m e, mkl m = ModuleNotFound -> mkl_fft m = ModuleNotFound -> pyfftw m = RaisesTypeError ->
  (exists e', import_ft m e = Ok (NumpyFft, e')) /\ back_end_numpy m e = Err TypeError.
Proof. exact type_error_differs. Qed.
Print Assumptions import_type_error_refuted.

(** C162.  The number of threads that the user has set is overridden. *)
Theorem import_threads_refuted : forall m e n, clean m -> cpu_count m = Some n ->
  exists p e', import_ft m e = Ok (p, e') /\ forall k, In k thread_settings -> lookup k e' = Some (shown m n).
Proof. exact import_overrides. Qed.
Print Assumptions import_threads_refuted.

Example import_case : let m := {| cpu_count := Some 4; shown := fun _ => "4"; mkl := ModuleNotFound; mkl_fft := ModuleNotFound; pyfftw := Works; pyfftw_interfaces := Works; pyfftw_plan := Works |} in
  clean m /\ exists e', import_ft m [("HOME", "/root"); ("OMP_NUM_THREADS", "1")] = Ok (PyFftw, e') /\ lookup "OMP_NUM_THREADS" e' = Some "4" /\ lookup "HOME" e' = Some "/root".
Proof. cbv zeta. split; [unfold clean, usable; cbn; tauto|]. eexists. split; [reflexivity|]. split; reflexivity. Qed.
