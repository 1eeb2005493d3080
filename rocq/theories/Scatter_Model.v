(** Model of a ScatteringMatrix that is calculated with a Solution: python/macromax/matrix.py lines 612-683 (srcvec2source,
    source2detfield, srcvec2detfield) and 770-820 (_matvec), without caching (Matrix_Model has the cache).
    Simplified: exact numbers; the Solution is the object of Run_Model; vectors of the right length (the check of line 785 and
    the reshaping are in Matrix_Model). *)
From Coq Require Import Reals List Arith ZArith Bool.
Require Import Verif.Base Verif.Cplx Verif.CSum Verif.Field Verif.Fourier_Model Verif.Vec_Model Verif.Solver_Model Verif.Derived_Model Verif.Run_Model.
Require Import Verif.Matrix_Model Verif.Modes_Model Verif.Modes_Spec.
Import ListNotations.
Local Open Scope R_scope.
Local Open Scope C_scope.

(** What the constructor of the matrix determines, lines 448-480, next to the modes: axis 0 of the grid and the source planes. *)
Record device : Type := { optics_of : optics; size_x : nat; step_x : R; front_source : nat; back_source : nat }.
(** The grid of the Solution. *)
Definition device_grid (d : device) : raster :=
  {| rshape := size_x d :: shape_of (optics_of d); rstep := step_x d :: rstep (transverse (optics_of d)) |}.
Definition k_vacuum (d : device) : R := Modes_Model.wavenumber (optics_of d).
Definition is_vectorial (d : device) : bool := Modes_Model.vectorial (optics_of d).
(** Lines 631-632: -i omega mu_0 / (c mu_0 step / 2), where omega = c k_0. *)
Definition source_amplitude (d : device) : C := - Ci * RtoC (2 * k_vacuum d / step_x d).
Definition source_of (d : device) (v : vec) : vfield :=
  srcvec2source (optics_of d) (source_amplitude d) (front_source d) (back_source d) v.

(** source2detfield, lines 650-669; the callback is limits maxiter rtol, by default 1e4 iterations and 1e-6 (line 363). *)
Definition source2detfield (fuel : nat) (maxiter : option Z) (rtol : R) (x : solution) (S : vfield) : option (outcome unit) :=
  loop fuel (limits maxiter rtol) true tt (set_E (set_source x S) (fun _ _ => 0)).
(** One column of _matvec, lines 789-820: the result, or the exception that solve raises, and the Solution as it is left. *)
Definition column (fuel : nat) (maxiter : option Z) (rtol : R) (d : device) (x : solution) (v : vec) : option (result vec * solution) :=
  if (length (non_zeros (n_elements (optics_of d)) v) =? 0)%nat then Some (Ok zero_vec, x)
  else
    match source2detfield fuel maxiter rtol x (source_of d v) with
    | None => None
    | Some (Returned _ x') => Some (Ok (scatter (optics_of d) (fun _ => get_E x') v), x')
    | Some (Raised _ x' e) => Some (Err e, x')
    end.
(** The loop over the columns, line 789: the same Solution is used for every column. *)
Fixpoint columns (fuel : nat) (maxiter : option Z) (rtol : R) (d : device) (x : solution) (vs : list vec) : option (result (list vec) * solution) :=
  match vs with
  | [] => Some (Ok [], x)
  | v :: vs' =>
      match column fuel maxiter rtol d x v with
      | None => None
      | Some (Err e, x') => Some (Err e, x')
      | Some (Ok u, x') =>
          match columns fuel maxiter rtol d x' vs' with
          | None => None
          | Some (r, x'') => Some (rmap (cons u) r, x'')
          end
      end
  end.
