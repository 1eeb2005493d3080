(** Model of the choice of Fourier transforms: python/macromax/utils/ft/ft_implementation.py lines 26-57, when the package is imported, and
    python/macromax/backend/numpy.py lines 35-96, when a back-end object is constructed.
    Simplified: what happens in other packages is an argument; log messages are left out. *)
From Coq Require Import String List Bool Arith.
Require Import Verif.Base.
Import ListNotations.
Local Open Scope string_scope.

(** What a statement that uses another package does: nothing unusual, or it raises ModuleNotFoundError (the package is not installed), or ImportError (it is,
    but it cannot be loaded), or TypeError, or another exception. *)
Inductive attempt : Type := Works | ModuleNotFound | RaisesImportError | RaisesTypeError | RaisesOther.
Record machine : Type := {
  cpu_count : option nat;            (* os.cpu_count() *)
  shown : nat -> string;             (* str of a number *)
  mkl : attempt;                     (* import mkl; mkl.set_num_threads(..) *)
  mkl_fft : attempt;                 (* from mkl_fft import * *)
  pyfftw : attempt;                  (* import pyfftw *)
  pyfftw_interfaces : attempt;       (* from pyfftw.interfaces.scipy_fft import *, and the settings of lines 49-52 *)
  pyfftw_plan : attempt              (* the two pyfftw.FFTW objects: numpy.py lines 60-65 *)
}.
Inductive provider : Type := MklFft | PyFftw | NumpyFft.
Definition environ : Type := list (string * string).

(** os.environ[key] = value *)
Fixpoint put (key value : string) (e : environ) : environ :=
  match e with
  | [] => [(key, value)]
  | (k, v) :: e => if k =? key then (key, value) :: e else (k, v) :: put key value e
  end.
Fixpoint lookup (key : string) (e : environ) : option string :=
  match e with [] => None | (k, v) :: e => if k =? key then Some v else lookup key e end.
Definition raised (a : attempt) : pyexc :=
  match a with ModuleNotFound | RaisesImportError => ImportError | RaisesTypeError => TypeError | _ => OtherException end.

(** ft_implementation.py lines 31-39, and numpy.py lines 35-44: the settings of the threads. *)
Definition set_threads (m : machine) (e : environ) : result environ :=
  match cpu_count m with
  | None => Ok e
  | Some n =>
    let e := fold_left (fun e k => put k (shown m n) e) ["OPENBLAS_NUM_THREADS"; "OMP_NUM_THREADS"; "MKL_NUM_THREADS"] e in
    match mkl m with
    | Works | ModuleNotFound | RaisesImportError | RaisesTypeError => Ok e      (* except (ImportError, TypeError) *)
    | RaisesOther => Err OtherException
    end
  end.
(** ft_implementation.py lines 41-57: where the functions fft, ifft, fftn and ifftn come from. *)
Definition choose_transforms (m : machine) : result provider :=
  match mkl_fft m with
  | Works => Ok MklFft
  | ModuleNotFound | RaisesTypeError =>                                        (* except (ModuleNotFoundError, TypeError) *)
    match (match pyfftw m with Works => pyfftw_interfaces m | a => a end) with
    | Works => Ok PyFftw
    | ModuleNotFound | RaisesTypeError => Ok NumpyFft                          (* except (ModuleNotFoundError, TypeError) *)
    | a => Err (raised a)
    end
  | a => Err (raised a)
  end.
(** The whole module. *)
Definition import_ft (m : machine) (e : environ) : result (provider * environ) :=
  do e' <- set_threads m e; do p <- choose_transforms m; Ok (p, e').

(** BackEndNumpy.__init__, numpy.py lines 35-96: whether its transforms are those of pyfftw (true) or of the module ft (false). *)
Definition back_end_numpy (m : machine) (e : environ) : result (bool * environ) :=
  do e' <- set_threads m e;
  match (match pyfftw m with Works => pyfftw_plan m | a => a end) with
  | Works => Ok (true, e')
  | ModuleNotFound => Ok (false, e')                                            (* except ModuleNotFoundError *)
  | a => Err (raised a)
  end.
