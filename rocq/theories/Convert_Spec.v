(** Singular value decompositions and the types of numbers. *)
Require Import Verif.Base Verif.Convert_Model.
From mathcomp Require Import all_ssreflect all_algebra.
Set Implicit Arguments.
Unset Strict Implicit.
Unset Printing Implicit Defensive.
Import GRing.Theory Num.Theory.
Local Open Scope ring_scope.

(** d is a singular value decomposition of A: unitary factors and non-negative singular values. *)
Definition decomposes (F : numClosedFieldType) n (A : 'M[F]_n) (d : decomposition F n) : Prop :=
  [/\ A = svd_u d *m diag_mx (svd_sigma d) *m svd_vh d,
      hermitian (svd_u d) *m svd_u d = 1%:M,
      svd_vh d *m hermitian (svd_vh d) = 1%:M &
      forall i, 0 <= svd_sigma d 0 i].
(** Rounding towards zero, as when a number is stored in an array of integers. *)
Definition to_integer (x : rat) : rat := (sgz (numq x) * (`|numq x| %/ denq x)%Z)%:~R.
