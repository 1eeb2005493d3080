(** Model of inv and convert, python/macromax/matrix.py lines 994-1055, on the matrices of mathcomp.
    Simplified: exact numbers; the singular value decomposition of numpy is an argument, as is the rounding to the type of the
    array; matrices with an odd number of rows, for which reshape raises a ValueError, are left out. *)
Require Import Verif.Base.
From mathcomp Require Import all_ssreflect all_algebra.
Set Implicit Arguments.
Unset Strict Implicit.
Unset Printing Implicit Defensive.
Import GRing.Theory Num.Theory.
Local Open Scope ring_scope.

(** numpy.linalg.inv; LinAlgError for singular matrices. *)
Definition linalg_inv (F : fieldType) n (A : 'M[F]_n) : result 'M[F]_n := if A \in unitmx then Ok (invmx A) else Err OtherException.

(** The conjugate transpose. *)
Definition hermitian (F : numClosedFieldType) m n (A : 'M[F]_(m, n)) : 'M[F]_(n, m) := map_mx conjC A^T.
(** A decomposition into u, sigma and vh. *)
Record decomposition (F : numClosedFieldType) n : Type := { svd_u : 'M[F]_n; svd_sigma : 'rV[F]_n; svd_vh : 'M[F]_n }.
(** inv, lines 996-1005, of a square matrix. *)
Definition inv (F : numClosedFieldType) n (svd : 'M[F]_n -> decomposition F n) (noise_level : F) (A : 'M[F]_n) : result 'M[F]_n :=
  if 0 < noise_level then
    let d := svd A in
    let sigma_inv := map_mx (fun x => x^* / (`|x| ^+ 2 + noise_level ^+ 2)) (svd_sigma d) in
    Ok (map_mx conjC ((svd_u d *m diag_mx sigma_inv) *m svd_vh d)^T)
  else linalg_inv A.

(** The shape of the result of inv, lines 996-1005, for an array of m rows and n columns: svd returns factors of m by m and n by n with
    min m n singular values; the factors are multiplied by broadcasting (u * sigma_inv) and as matrices (@ vh).  numpy.linalg.inv
    raises a LinAlgError unless m equals n. *)
Definition broadcast_axis (m k : nat) : result nat :=
  if (m == k) || (k == 1)%N then Ok m else if (m == 1)%N then Ok k else Err ValueError.
Definition inv_shape (regularize : bool) (m n : nat) : result (nat * nat) :=
  if regularize then
    bind (broadcast_axis m (minn m n)) (fun k =>
      if k == n then Ok (n, m) else Err ValueError)
  else if m == n then Ok (n, m) else Err OtherException.

(** convert, lines 1037-1055, for matrices of h + h rows, with a function for the inverse and with the conversion of the elements to the
    type of the array t. *)
Definition convert (F : fieldType) h (inverse : 'M[F]_h -> result 'M[F]_h) (cast : F -> F) (s : 'M[F]_(h + h)) : result 'M[F]_(h + h) :=
  bind (inverse (drsubmx s)) (fun i =>
    let t11 := map_mx cast i in
    let t10 := map_mx cast (- t11 *m dlsubmx s) in
    let t01 := map_mx cast (ursubmx s *m t11) in
    let t00 := map_mx cast (ulsubmx s + ursubmx s *m t10) in
    Ok (block_mx t00 t01 t10 t11)).
