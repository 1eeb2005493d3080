(** Model of the vector calculus of the back-ends: python/macromax/backend/__init__.py lines 473-668.
    Simplified: exact numbers; the singleton second axis of vector fields is left out; operations return new fields (the
    reuse of work arrays is treated in another model). *)
From Coq Require Import Reals List Arith ZArith.
Require Import Verif.Base Verif.Cplx Verif.CSum Verif.Field Verif.Fourier_Model.
Import ListNotations.
Local Open Scope R_scope.
Local Open Scope C_scope.

(** The part of the grid that matters here: shape and step along each axis (utils/ft/grid.py 246-254). *)
Record raster : Type := { rshape : list nat; rstep : list R }.
Definition rndim (g : raster) : nat := length (rshape g).

(** grid.k[axis] (utils/ft/grid.py 427-439, backend/__init__.py 651-656) at element j of an axis of n points: 2 pi times
    the signed frequency index in fft order, divided by the extent. *)
Definition k_index (n j : nat) : Z := if Nat.ltb (2 * j) n then Z.of_nat j else (Z.of_nat j - Z.of_nat n)%Z.
Definition k_axis (n : nat) (st : R) (j : nat) : R := (2 * PI * IZR (k_index n j) / (INR n * st))%R.
(** self.k[axis] broadcast over the grid; only used for axis < len(self.k). *)
Definition kvec (g : raster) (axis : nat) (p : list nat) : R :=
  k_axis (nth axis (rshape g) 1%nat) (nth axis (rstep g) 1%R) (nth axis p 0%nat).

(** k2, lines 658-668: the sum of the squares of the components. *)
Definition k2 (g : raster) (p : list nat) : R := rsum (rndim g) (fun i => (kvec g i p * kvec g i p)%R).

(** curl_ft, lines 483-509, for a field of [nf] components and vector length [vl]. *)
Definition curl_ft (g : raster) (vl nf : nat) (F : vfield) : vfield := fun c p =>
  let o0 := ((c + vl - 1) mod vl)%nat in
  let o1 := ((c + 1) mod vl)%nat in
  let t1 := if (Nat.ltb o0 nf && Nat.ltb o1 (rndim g))%bool then RtoC (kvec g o1 p) * F o0 p else 0 in
  let t2 := if (Nat.ltb o1 nf && Nat.ltb o0 (rndim g))%bool then RtoC (kvec g o0 p) * F o1 p else 0 in
  Ci * (t1 - t2).
(** curl, lines 473-481. *)
Definition curl (g : raster) (vl : nat) (F : vfield) : vfield := convolve (rshape g) (curl_ft g vl vl) F.

(** cross, lines 511-529, of two fields of [vl] components. *)
Definition cross (vl : nat) (A B : vfield) : vfield := fun c p =>
  let o0 := ((c + vl - 1) mod vl)%nat in
  let o1 := ((c + 1) mod vl)%nat in
  A o1 p * B o0 p - A o0 p * B o1 p.

(** outer, lines 531-542: component (i, j) of the dyadic product. *)
Definition outer (A B : vfield) (i j : nat) : sfield := fun p => A i p * Cconj (B j p).

(** div_ft, lines 555-569, of a field of [nf] components (one column of a tensor field).  The loop runs over
    min(grid.ndim, len(shape)) where len(shape) = 2 + grid.ndim, so that the index is out of range when nf < grid.ndim. *)
Definition div_ft (g : raster) (nf : nat) (F : vfield) : result sfield :=
  if Nat.ltb nf (rndim g) then Err IndexError
  else Ok (fun p => csum (rndim g) (fun d => Ci * RtoC (kvec g d p) * F d p)).
(** div, lines 545-553. *)
Definition div (g : raster) (nf : nat) (F : vfield) : result sfield :=
  do r <- div_ft g nf (vft (rshape g) F); Ok (ift (rshape g) r).

(** The index (0, 0, ...) of line 622. *)
Definition is_origin (p : list nat) : bool := forallb (Nat.eqb 0) p.
(** longitudinal_projection_ft, lines 606-649 (nb_data_dims = grid.ndim). *)
Definition longitudinal_ft (g : raster) (F : vfield) : vfield := fun c p =>
  if Nat.ltb c (rndim g) then
    if is_origin p then F c p
    else RtoC (kvec g c p) * (csum (rndim g) (fun i => RtoC (kvec g i p) * F i p) / RtoC (k2 g p))
  else 0.
(** transversal_projection_ft, lines 596-608. *)
Definition transversal_ft (g : raster) (F : vfield) : vfield := fun c p => F c p - longitudinal_ft g F c p.
(** Lines 572-594. *)
Definition longitudinal (g : raster) (F : vfield) : vfield := convolve (rshape g) (longitudinal_ft g) F.
Definition transversal (g : raster) (F : vfield) : vfield := convolve (rshape g) (transversal_ft g) F.
