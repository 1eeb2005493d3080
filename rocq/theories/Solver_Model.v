(** Model of the preconditioned operators and of one update of the modified Born series:
    python/macromax/solver.py lines 270-623 and 1066-1098; backend/__init__.py lines 387-444 (adjoint, subtract, mul),
    462-470 (inverse).
    Simplified: exact numbers; arrays that singleton-expand are functions of the position; the result of the numerical
    optimisation (scipy.optimize.fmin) is an argument of the model; in-place operations return new values. *)
From Coq Require Import Reals List Arith Bool.
Require Import Verif.Cplx Verif.CSum Verif.Field Verif.Fourier_Model Verif.Vec_Model.
Import ListNotations.
Local Open Scope R_scope.
Local Open Scope C_scope.

(** ** Tensor fields *)
(** A 1x1 field, which stands for that multiple of the identity, or a field of 3x3 matrices
    (backend/__init__.py 355-385). *)
Inductive tensor : Type :=
| TScalar (f : sfield)
| TMatrix (m : nat -> nat -> sfield).

(** Multiplication of every element with one number. *)
Definition tscale (a : C) (t : tensor) : tensor :=
  match t with TScalar f => TScalar (fun p => a * f p) | TMatrix m => TMatrix (fun i j p => a * m i j p) end.
(** The element of eye, backend/__init__.py lines 204-216. *)
Definition eye (i j : nat) : C := if Nat.eqb i j then 1 else 0.
(** t -= a for a 1x1 tensor, t -= eye * a otherwise: solver.py 481-484 and 522-526. *)
Definition tshift (a : C) (t : tensor) : tensor :=
  match t with TScalar f => TScalar (fun p => f p + a) | TMatrix m => TMatrix (fun i j p => m i j p + eye i j * a) end.
(** subtract, backend/__init__.py lines 397-413. *)
Definition tsub (a b : tensor) : tensor :=
  match a, b with
  | TScalar f, TScalar g => TScalar (fun p => f p - g p)
  | TScalar f, TMatrix n => TMatrix (fun i j p => eye i j * f p - n i j p)
  | TMatrix m, TScalar g => TMatrix (fun i j p => m i j p - eye i j * g p)
  | TMatrix m, TMatrix n => TMatrix (fun i j p => m i j p - n i j p)
  end.
(** Sum of two tensor fields of the same kind (the + operator); singleton dimensions do not expand to multiples of the
    identity, so that a 1x1 operand is added to every element of a matrix. *)
Definition tadd (a b : tensor) : tensor :=
  match a, b with
  | TScalar f, TScalar g => TScalar (fun p => f p + g p)
  | TScalar f, TMatrix n => TMatrix (fun i j p => f p + n i j p)
  | TMatrix m, TScalar g => TMatrix (fun i j p => m i j p + g p)
  | TMatrix m, TMatrix n => TMatrix (fun i j p => m i j p + n i j p)
  end.
(** mul, backend/__init__.py lines 415-444, of two tensor fields. *)
Definition tmul (a b : tensor) : tensor :=
  match a, b with
  | TScalar f, TScalar g => TScalar (fun p => f p * g p)
  | TScalar f, TMatrix n => TMatrix (fun i j p => f p * n i j p)
  | TMatrix m, TScalar g => TMatrix (fun i j p => m i j p * g p)
  | TMatrix m, TMatrix n => TMatrix (fun i k p => csum 3 (fun j => m i j p * n j k p))
  end.
(** mul, backend/__init__.py lines 415-444, of a tensor field and a field of vectors. *)
Definition tapply (a : tensor) (F : vfield) : vfield :=
  match a with
  | TScalar f => fun c p => f p * F c p
  | TMatrix m => fun i p => csum 3 (fun j => m i j p * F j p)
  end.
(** adjoint, backend/__init__.py lines 387-395. *)
Definition tadjoint (a : tensor) : tensor :=
  match a with TScalar f => TScalar (fun p => Cconj (f p)) | TMatrix m => TMatrix (fun i j p => Cconj (m j i p)) end.
(** The inverse of a 3x3 matrix, by cofactors; numpy.linalg.inv for invertible matrices. *)
Definition det3 (m : nat -> nat -> C) : C :=
  m 0%nat 0%nat * (m 1%nat 1%nat * m 2%nat 2%nat - m 1%nat 2%nat * m 2%nat 1%nat)
  - m 0%nat 1%nat * (m 1%nat 0%nat * m 2%nat 2%nat - m 1%nat 2%nat * m 2%nat 0%nat)
  + m 0%nat 2%nat * (m 1%nat 0%nat * m 2%nat 1%nat - m 1%nat 1%nat * m 2%nat 0%nat).
Definition inv3 (m : nat -> nat -> C) (i j : nat) : C :=
  let a := ((j + 1) mod 3)%nat in let b := ((j + 2) mod 3)%nat in
  let c := ((i + 1) mod 3)%nat in let d := ((i + 2) mod 3)%nat in
  (m a c * m b d - m a d * m b c) / det3 m.
(** inv, backend/__init__.py 462-470 with ldivide of backend/numpy.py 135-170. *)
Definition tinv (a : tensor) : tensor :=
  match a with TScalar f => TScalar (fun p => 1 / f p) | TMatrix m => TMatrix (fun i j p => inv3 (fun i j => m i j p) i j) end.

(** ** The preconditioned operators *)
Record ops : Type := {
  o_grid : raster;         (** self.grid * self.wavenumber, line 212 *)
  o_vectorial : bool;
  o_magnetic : bool;
  o_alpha : C;
  o_beta : R;
  o_chiEE : tensor;
  o_chiEH : tensor;
  o_chiHE : tensor;
  o_chiHH : tensor;
  o_source : vfield        (** self.__source_normalized *)
}.
Definition vector_length (o : ops) : nat := if o_vectorial o then 3%nat else 1%nat.
Definition im (z : C) : C := RtoC (snd z).

(** solver.py lines 350, 354-355, 374-375, 381-387 and 474-484, for the constants alpha and beta found before, and the
    source_distribution setter, lines 711-717. *)
Definition precondition (g : raster) (vectorial magnetic : bool) (alpha : C) (beta : R) (epsilon xi zeta mu : tensor)
    (source : vfield) : ops :=
  let mu_inv := tinv mu in
  let chiEH_beta := tscale (- Ci) (tmul xi mu_inv) in
  let chiHE_beta := tscale Ci (tmul mu_inv zeta) in
  let xi_mu_inv_zeta := tmul xi (tscale (- Ci) chiHE_beta) in
  let delta := tsub epsilon xi_mu_inv_zeta in
  let chiHH := if magnetic then tsub (TScalar (fun _ => 1)) (tscale (1 / RtoC beta) mu_inv)
               else tadd (TScalar (fun _ => 1)) (tscale (- (1 / RtoC beta)) mu_inv) in
  {| o_grid := g; o_vectorial := vectorial; o_magnetic := magnetic; o_alpha := alpha; o_beta := beta;
     o_chiEE := tshift (- (alpha * Ci / im alpha)) (tscale (Ci / im alpha / RtoC beta) delta);
     o_chiEH := tscale (Ci / im alpha / RtoC beta) chiEH_beta;
     o_chiHE := tscale (Ci / im alpha / RtoC beta) chiHE_beta;
     o_chiHH := tscale (Ci / im alpha) chiHH;
     o_source := fun c p => source c p * (Ci / im alpha / RtoC beta) |}.

(** __update_operators, solver.py lines 514-528. *)
Definition update_operators (o : ops) (alpha : C) : ops :=
  let r := im (o_alpha o) / im alpha in
  {| o_grid := o_grid o; o_vectorial := o_vectorial o; o_magnetic := o_magnetic o; o_alpha := alpha; o_beta := o_beta o;
     o_chiEE := tscale (Ci / im alpha) (tshift (o_alpha o - alpha) (tscale (1 / (Ci / im (o_alpha o))) (o_chiEE o)));
     o_chiEH := tscale r (o_chiEH o);
     o_chiHE := tscale r (o_chiHE o);
     o_chiHH := tscale r (o_chiHH o);
     o_source := fun c p => o_source o c p * r |}.

(** The constructor ends with __update_operators(alpha) for the same alpha, lines 491-492. *)
Definition prepare (g : raster) (vectorial magnetic : bool) (alpha : C) (beta : R) (epsilon xi zeta mu : tensor)
    (source : vfield) : ops :=
  update_operators (precondition g vectorial magnetic alpha beta epsilon xi zeta mu source) alpha.

(** chi_op, solver.py lines 531-562. *)
Definition chi_op (o : ops) (E : vfield) : vfield :=
  let n := vector_length o in
  if o_magnetic o then
    let ED := curl (o_grid o) n E in
    let chiE := fun c p => tapply (o_chiEE o) E c p + tapply (o_chiHE o) ED c p in
    let chiH := fun c p => tapply (o_chiEH o) E c p + tapply (o_chiHH o) ED c p in
    let D := curl (o_grid o) n chiH in
    fun c p => chiE c p + D c p
  else tapply (o_chiEE o) E.

(** g_scalar_ft, solver.py lines 566-568. *)
Definition g_scalar (o : ops) (p : list nat) : C := - Ci * im (o_alpha o) / (RtoC (k2 (o_grid o) p) - o_alpha o).
(** g_ft_op, solver.py lines 570-581. *)
Definition g_ft_op (o : ops) (F : vfield) : vfield := fun c p =>
  if o_vectorial o then
    (F c p - longitudinal_ft (o_grid o) F c p) * g_scalar o p
    + longitudinal_ft (o_grid o) F c p * (Ci * im (o_alpha o) / o_alpha o)
  else F c p * g_scalar o p.
(** dyadic_green_function_op, solver.py lines 583-584. *)
Definition green_op (o : ops) (F : vfield) : vfield := convolve (rshape (o_grid o)) (g_ft_op o) F.

(** The update of the field, solver.py lines 1070-1075. *)
Definition update (o : ops) (E : vfield) : vfield :=
  let XEs := fun c p => chi_op o E c p + o_source o c p in
  let d := fun c p => green_op o XEs c p - E c p in
  chi_op o d.
(** The field after an accepted update, line 1085. *)
Definition next_field (o : ops) (E : vfield) : vfield := fun c p => E c p + update o E c p.

(** The E property, solver.py lines 811-821: the internal field divided by the squared wavenumber. *)
Definition electric_field (k0 : R) (F : vfield) : vfield := fun c p => F c p / RtoC (k0 * k0).
(** The source_distribution property, solver.py lines 690-700. *)
Definition source_distribution (o : ops) : vfield := fun c p => o_source o c p * (RtoC (o_beta o) / Ci * im (o_alpha o)).

(** ** The constants alpha and beta for non-magnetic isotropic media *)
(** The largest of the non-negative values of a function on the grid (amax of abs). *)
Fixpoint rmax (n : nat) (f : nat -> R) : R := match n with O => 0%R | S m => Rmax (rmax m f) (f m) end.
Fixpoint rmax_over (s : list nat) (F : list nat -> R) : R :=
  match s with
  | [] => Rmax 0 (F [])
  | n :: s' => rmax n (fun i => rmax_over s' (fun p => F (i :: p)))
  end.
(** calc_DeltaEE_beta2, solver.py lines 392-398, for a 1x1 tensor. *)
Definition delta_beta2 (alpha_r beta : R) (e : C) : C :=
  let ab := RtoC (alpha_r * beta) in
  RtoC (Cmod ab * Cmod ab) - (Cconj e * ab + e * Cconj ab) + Cconj e * e.
(** calc_sigmaEE, solver.py lines 400-401, with largest_eigenvalue, lines 313-314 (mat3_eigh of 1x1 returns the value itself). *)
Definition sigmaEE (g : raster) (e : sfield) (alpha_r beta : R) : R :=
  (sqrt (rmax_over (rshape g) (fun p => Cmod (delta_beta2 alpha_r beta (e p)))) / Rabs beta)%R.
(** __increase_bias_to_limit_kernel_width, lines 591-627: the new imaginary part of alpha.  [kappa] is the minimal
    extinction coefficient for the thinnest boundary, if there is one. *)
Definition increased_bias (alpha : C) (kappa : option R) : R :=
  let offset := (snd alpha + 5 / 100)%R in
  match kappa with
  | None => offset
  | Some k => let n := sqrt (Rmax 0 (fst alpha + k * k)) in
              let minimal := (2 * n * k)%R in
              if Rlt_dec offset minimal then minimal else offset
  end.
(** solver.py lines 444-465: alpha for non-magnetic media, given the real part that the optimisation settled on.
    [transpose] is set for media with gain and no loss. *)
Definition choose_alpha (g : raster) (e : sfield) (beta alpha_r : R) (transpose : bool) (kappa : option R) : C :=
  let s := sigmaEE g e alpha_r beta in
  let alpha := (alpha_r, if transpose then (- s)%R else s) in
  (alpha_r, increased_bias alpha kappa).
