(** Model of the choice of the constants alpha and beta by the constructor of Solution, python/macromax/solver.py lines 270-493 and 591-627
    (__prepare_preconditioner and __increase_bias_to_limit_kernel_width).
    Simplified: exact numbers; the values on which scipy.optimize.fmin settles are an argument (any values are possible);
    the messages of the log are left out. *)
From Coq Require Import Reals List Arith Bool.
Require Import Verif.Base Verif.Num Verif.Cplx Verif.CSum Verif.Field Verif.Fourier_Model Verif.Display_Model Verif.Vec_Model.
Require Import Verif.Modes_Model Verif.Roots_Model Verif.Solver_Model.
Import ListNotations.
Local Open Scope R_scope.
Local Open Scope C_scope.

(** numpy.any and numpy.all of the values at all points of the grid: backend/__init__.py lines 218-224. *)
Fixpoint any_over (s : list nat) (F : list nat -> bool) : bool :=
  match s with
  | [] => F []
  | n :: s' => existsb (fun i => any_over s' (fun p => F (i :: p))) (seq 0 n)
  end.
Definition all_over (s : list nat) (F : list nat -> bool) : bool := negb (any_over s (fun p => negb (F p))).

Section Choice.
  (** self.__BE.eps *)
  Variable eps : R.
  (** The shape of the grid. *)
  Variable s : list nat.

  (** The elements of a tensor at a point. *)
  Definition elements (t : tensor) (p : list nat) : list C :=
    match t with TScalar f => [f p] | TMatrix m => flat_map (fun i => map (fun j => m i j p) [0; 1; 2]%nat) [0; 1; 2]%nat end.
  (** BackEnd.first, backend/__init__.py lines 195-197. *)
  Definition first (t : tensor) : C := hd (RtoC 0) (elements t (map (fun _ => 0%nat) s)).
  (** BackEnd.allclose, backend/__init__.py lines 222-224: numpy.allclose with its default tolerances. *)
  Definition close (x y : C) : bool := Rleb (Cmod (x - y)%C) (1 / 100000000 + 1 / 100000 * Cmod y).
  Definition allclose (t : tensor) (y : C) : bool := all_over s (fun p => forallb (fun x => close x y) (elements t p)).
  (** solver.py lines 304-307. *)
  Definition is_magnetic (xi zeta mu : tensor) : bool := negb (allclose xi (RtoC 0) && allclose zeta (RtoC 0) && allclose mu (first mu)).

  (** The eigenvalues found at a point by mat3_eigh, of which the matrix dimensions are 1x1 or 3x3. *)
  Definition eigenvalues (t : tensor) (p : list nat) : list C :=
    match (match t with
           | TScalar f => mat3_eigh eps [1; 1]%nat (fun _ => f p)
           | TMatrix m => mat3_eigh eps [3; 3]%nat (fun l => m (nth 0 l 0%nat) (nth 1 l 0%nat) p)
           end) with
    | Ok l => values l
    | Err _ => []
    end.
  (** Lines 313-314. *)
  Definition largest_eigenvalue (t : tensor) : R := rmax_over s (fun p => fold_right Rmax 0 (map Cmod (eigenvalues t p))).
  (** Lines 316-317. *)
  Definition largest_singularvalue (t : tensor) : R := sqrt (largest_eigenvalue (tmul (tadjoint t) t)).

  (** Lines 320-333. *)
  Definition max_allowed_gain : R := sqrt eps.
  Definition antihermitian (t : tensor) : tensor := tscale (- (Ci / RtoC 2)) (tsub t (tadjoint t)).
  Definition has_gain (t : tensor) : bool := any_over s (fun p => existsb (fun x : C => Rltb (fst x) (- max_allowed_gain)) (eigenvalues (antihermitian t) p)).
  Definition has_loss (t : tensor) : bool := has_gain (tscale (- (1)) t).
  (** Lines 334-336. *)
  Definition some_gain (epsilon xi zeta mu : tensor) : bool := has_gain epsilon || has_gain xi || has_gain zeta || has_gain mu.
  Definition some_loss (epsilon xi zeta mu : tensor) : bool := has_loss epsilon || has_loss xi || has_loss zeta || has_loss mu.
  Definition transposes (epsilon xi zeta mu : tensor) : bool := some_gain epsilon xi zeta mu && negb (some_loss epsilon xi zeta mu).
  (** The warning of lines 338-345. *)
  Definition warns (epsilon xi zeta mu : tensor) : bool := negb (transposes epsilon xi zeta mu) && some_gain epsilon xi zeta mu.

  (** epsilon_xi_mu_inv_zeta, lines 381-389. *)
  Definition effective_epsilon (epsilon xi zeta mu : tensor) : tensor :=
    tsub epsilon (tmul xi (tscale (- Ci) (tscale Ci (tmul (tinv mu) zeta)))).
  (** calc_DeltaEE_beta2, lines 394-400. *)
  Definition delta_tensor (e : tensor) (alpha_r beta : R) : tensor :=
    let ab := RtoC (alpha_r * beta) in
    let sum := tadd (tscale ab (tadjoint e)) (tscale (Cconj ab) e) in
    tadd (tsub (TScalar (fun _ => RtoC (Cmod ab * Cmod ab))) sum) (tmul (tadjoint e) e).
  (** calc_sigmaEE, lines 402-403. *)
  Definition sigma_EE (e : tensor) (alpha_r beta : R) : R := (sqrt (largest_eigenvalue (delta_tensor e alpha_r beta)) / Rabs beta)%R.
  (** calc_chiHH_beta2 and calc_sigmaHH of magnetic media, lines 357-366. *)
  Definition chiHH_beta2 (mu : tensor) (beta : R) : tensor :=
    let mu_inv := tinv mu in
    tadd (tmul (tadjoint mu_inv) mu_inv)
      (tsub (TScalar (fun _ => RtoC (Rabs beta * Rabs beta))) (tadd (tscale (RtoC beta) (tadjoint mu_inv)) (tscale (Cconj (RtoC beta)) mu_inv))).
  Definition sigma_HH (mu : tensor) (beta : R) : R := (sqrt (largest_eigenvalue (chiHH_beta2 mu beta)) / Rabs beta)%R.
  (** sigmaD, line 407. *)
  Definition sigma_D (step : list R) (k0 : R) : R :=
    (sqrt (fold_right (fun d acc => (2 * PI / (2 * d)) * (2 * PI / (2 * d)) + acc) 0 step) / k0)%R.
  (** max_singular_value_sum, lines 410-415. *)
  Definition singular_value_sum (sigmaD : R) (epsilon xi zeta mu : tensor) (alpha_r beta : R) : R :=
    (sigmaD * sigmaD * sigma_HH mu beta
     + sigmaD * (largest_singularvalue (tscale (- Ci)%C (tmul xi (tinv mu))) + largest_singularvalue (tscale Ci (tmul (tinv mu) zeta))) / Rabs beta
     + sigma_EE (effective_epsilon epsilon xi zeta mu) alpha_r beta)%R.

  (** Lines 405-470: the constants alpha and beta, given the values on which the optimisation settled. *)
  Definition choose (step : list R) (k0 : R) (epsilon xi zeta mu : tensor) (settled : R * R) (kappa : option R) : C * R :=
    let alpha_r := fst settled in
    if is_magnetic xi zeta mu then
      let beta := (snd settled * snd settled)%R in
      ((alpha_r, increased_bias (alpha_r, singular_value_sum (sigma_D step k0) epsilon xi zeta mu alpha_r beta) kappa), beta)
    else
      let beta := fst (first (tinv mu)) in
      let sigma := sigma_EE (effective_epsilon epsilon xi zeta mu) alpha_r beta in
      ((alpha_r, increased_bias (alpha_r, if transposes epsilon xi zeta mu then (- sigma)%R else sigma) kappa), beta).
End Choice.

(** The constructor after reading its arguments, lines 256-268 and 270-493: the constants and the operators.
    Lengths are multiplied by the wave number as in [prepare]. *)
Definition construct (eps : R) (g : raster) (k0 : R) (vectorial : bool) (epsilon xi zeta mu : tensor) (settled : R * R) (kappa : option R) (S : vfield) : ops :=
  let '(alpha, beta) := choose eps (rshape g) (rstep g) k0 epsilon xi zeta mu settled kappa in
  prepare {| rshape := rshape g; rstep := map (Rmult k0) (rstep g) |} vectorial (is_magnetic (rshape g) xi zeta mu) alpha beta epsilon xi zeta mu S.
