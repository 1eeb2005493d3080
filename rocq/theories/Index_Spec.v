(** What a refractive index means: the permittivity for the index n is its square; for an index that is a matrix, the square is that of the matrix. *)
From Coq Require Import Reals List.
Require Import Verif.Base Verif.Cplx Verif.Field Verif.Vec_Model Verif.Solver_Model.
Local Open Scope C_scope.

(** e is the permittivity for the refractive index n: multiplying with n twice is multiplying with e. *)
Definition index_of (n e : tensor) : Prop := forall (F : vfield) c p, (c < 3)%nat -> tapply e F c p = tapply n (fun c p => tapply n F c p) c p.
(** A crystal with refractive index a for polarization along (1, 1, 0), and b for the polarizations at right angles to this. *)
Definition crystal (a b : R) : tensor :=
  TMatrix (fun i j _ => match i, j with
    | 0%nat, 0%nat | 1%nat, 1%nat => RtoC ((a + b) / 2)
    | 0%nat, 1%nat | 1%nat, 0%nat => RtoC ((a - b) / 2)
    | 2%nat, 2%nat => RtoC b
    | _, _ => RtoC 0 end).
(** Numbers and diagonal matrices. *)
Definition diagonal (n : tensor) : Prop := match n with TScalar _ => True | TMatrix m => forall i j p, i <> j -> m i j p = RtoC 0 end.
