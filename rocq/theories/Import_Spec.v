(** What installed packages should and should not change. *)
From Coq Require Import String List.
Require Import Verif.Base Verif.Import_Model.
Import ListNotations.
Local Open Scope string_scope.

(** The package is installed and works, or it is not installed. *)
Definition usable (a : attempt) : Prop := a = Works \/ a = ModuleNotFound.
(** Every optional package is either usable or absent. *)
Definition clean (m : machine) : Prop := usable (mkl m) /\ usable (mkl_fft m) /\ usable (pyfftw m) /\ pyfftw_interfaces m = Works /\ pyfftw_plan m = Works.
Definition thread_settings : list string := ["OPENBLAS_NUM_THREADS"; "OMP_NUM_THREADS"; "MKL_NUM_THREADS"].
(** Both environments have the same variables with the same values, apart from some. *)
Definition same_but (l : list string) (e e' : environ) : Prop := forall k, ~ In k l -> lookup k e' = lookup k e.
(** The fastest package that is installed. *)
Definition preferred (m : machine) (p : provider) : Prop :=
  match p with
  | MklFft => mkl_fft m = Works
  | PyFftw => mkl_fft m = ModuleNotFound /\ pyfftw m = Works
  | NumpyFft => mkl_fft m = ModuleNotFound /\ pyfftw m = ModuleNotFound
  end.
