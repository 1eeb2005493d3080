(** Model of the whole constructor of Solution followed by solve: python/macromax/solver.py lines 133-268 (the arguments, the bound, and
    the initial field), 270-493 (the constants alpha and beta), and 1100-1123 (solve).
    The parts are modelled in Run_Model and Choice_Model; here they are joined. *)
From Coq Require Import Reals List Arith.
Require Import Verif.Base Verif.Cplx Verif.CSum Verif.Field Verif.Fourier_Model Verif.Vec_Model Verif.Solver_Model Verif.Choice_Model Verif.Run_Model.
Import ListNotations.
Local Open Scope R_scope.
Local Open Scope C_scope.

(** The permittivity including the susceptibility of the bound: lines 241-247. *)
Definition with_bound (epsilon : tensor) (chi : option sfield) : tensor :=
  match chi with None => epsilon | Some x => tsub epsilon (TScalar (fun p => - x p)) end.
(** Solution.__init__ of a vectorial problem with a zero initial field.  [settled] are the values on which scipy.optimize.fmin settles,
    [thick] is the kernel attenuation that lines 591-627 ask for; S is the source term i omega mu_0 j. *)
Definition constructed (eps : R) (g : raster) (k0 : R) (epsilon xi zeta mu : tensor) (settled : R * R) (thick : option R) (S : vfield) (chi : option sfield) : solution :=
  let '(alpha, beta) := choose eps (rshape g) (rstep g) k0 (with_bound epsilon chi) xi zeta mu settled thick in
  Run_Model.construct g true (is_magnetic (rshape g) xi zeta mu) k0 alpha beta epsilon xi zeta mu S chi (fun _ _ => 0).
