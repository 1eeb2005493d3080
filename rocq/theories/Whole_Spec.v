(** Vocabulary for the statements about solve: what the arguments, as a user gives them, stand for. *)
From Coq Require Import Reals List Arith ZArith Bool.
Require Import Verif.Base Verif.Num Verif.Grid_Model Verif.Grid_Spec Verif.Bound_Model Verif.Bound_Spec.
Require Import Verif.Cplx Verif.CSum Verif.Field Verif.Vec_Model Verif.Solver_Model Verif.Solver_Spec Verif.Derived_Model Verif.Array_Model Verif.Array_Spec Verif.Material_Model Verif.Material_Spec Verif.Entry_Model Verif.Whole_Model.
Import ListNotations.
Local Open Scope R_scope.
Local Open Scope C_scope.

(** The numbers of points and the distances between them, along all axes. *)
Definition points_of (g : grid RN) : list nat := map (points g) (seq 0 (ndim RN g)).
Definition sampled (g : grid RN) : raster := {| rshape := points_of g; rstep := map (step_of g) (seq 0 (ndim RN g)) |}.
(** The coordinates of a point, given those along all axes. *)
Definition position (g : grid RN) (crd : nat -> list R) (p : list nat) : list R := map (fun i => nth (nth i p 0%nat) (crd i) 0%R) (seq 0 (ndim RN g)).

(** An argument for a material property. *)
Definition means_tensor (g : grid RN) (crd : nat -> list R) (x : argument) (t : tensor) : Prop :=
  match x with
  | GivenArray a => given (points_of g) a t
  | GivenFunction f => t = TScalar (fun p => f (position g crd p))
  | GivenVector _ => False
  end.
(** An argument for a source: an array that broadcasts to the components and the points, or a function of the coordinates. *)
Definition means_vector (g : grid RN) (crd : nat -> list R) (v : bool) (x : argument) (F : vfield) : Prop :=
  let nv := (if v then 3 else 1)%nat in
  match x with
  | GivenArray a => Array_Spec.broadcasts a (nv :: points_of g) /\ forall c p, (c < nv)%nat -> CSum.inside (points_of g) p -> bget a (c :: p) = F c p
  | GivenFunction f => forall c p, F c p = f (position g crd p)
  | GivenVector f => v = true /\ forall c p, F c p = f (position g crd p) c
  end.
(** Its values are vectors: it has three components in addition to the axes of the grid. *)
Definition vector_valued (g : grid RN) (x : argument) : Prop :=
  match x with
  | GivenArray a => exists t, ashape a = 3%nat :: t /\ (ndim RN g <= length t)%nat
  | GivenFunction _ => False
  | GivenVector _ => True
  end.

(** The wavenumber that is asked for; the angular frequency has precedence, then the vacuum wavelength. *)
Definition asked_wavenumber (u : si) (q : request) (k0 : R) : Prop :=
  match q_angular_frequency q, q_vacuum_wavelength q with
  | Some w, _ => (k0 * c_light u)%R = w
  | None, Some l => (0 < l)%R /\ (k0 * l)%R = (2 * PI)%R
  | None, None => k0 = q_wavenumber q
  end.
(** Whether a vector problem is to be solved: as specified; if not, as the source is; if there is no source, it is. *)
Definition asked_kind (g : grid RN) (q : request) (v : bool) : Prop :=
  match q_vectorial q with
  | Some b => v = b
  | None => match q_source_distribution q, q_current_density q with
            | Some x, _ | None, Some x => v = true <-> vector_valued g x
            | None, None => v = true
            end
  end.
(** The source: as it is given, or - i omega mu_0 j for the current density j, or nothing. *)
Definition asked_source (u : si) (g : grid RN) (crd : nat -> list R) (k0 : R) (q : request) (v : bool) (S : vfield) : Prop :=
  match q_source_distribution q, q_current_density q with
  | Some x, _ => means_vector g crd v x S
  | None, Some x => exists J, means_vector g crd v x J /\ forall c p, S c p = - Ci * RtoC (k0 * c_light u) * RtoC (mu_0 u) * J c p
  | None, None => forall c p, S c p = 0
  end.
(** The permittivity: as it is given, or the square of the refractive index, of which the real part must not be negative if it is isotropic,
    or that of vacuum. *)
Definition asked_medium (g : grid RN) (crd : nat -> list R) (q : request) (t : tensor) : Prop :=
  match q_epsilon q, q_refractive_index q with
  | Some x, _ => means_tensor g crd x t
  | None, Some x => exists n, means_tensor g crd x n /\ t = square n /\ forall p, CSum.inside (points_of g) p -> ~ negative_index n p
  | None, None => t = TScalar (fun _ => 1)
  end.
(** The permittivity e and the permeability m of magnetic materials: as they are given, where both change sign in places where an isotropic refractive
    index has a negative real part. *)
Definition asked_materials (g : grid RN) (crd : nat -> list R) (q : request) (e m : tensor) : Prop :=
  match q_epsilon q, q_refractive_index q with
  | Some x, _ => means_tensor g crd x e /\ means_tensor g crd (q_mu q) m
  | None, Some x => exists n m0, means_tensor g crd x n /\ means_tensor g crd (q_mu q) m0 /\
      negated_where (negative_index n) (square n) e /\ negated_where (negative_index n) m0 m
  | None, None => e = TScalar (fun _ => 1) /\ means_tensor g crd (q_mu q) m
  end.
(** The square root of a complex number with a positive real part, or with the positive imaginary part if there is none. *)
Definition principal_root (z n : C) : Prop := n * n = z /\ ((0 < fst n)%R \/ fst n = 0%R /\ (0 <= snd n)%R).
(** The susceptibility of the boundary: that of an index n + i kappa instead of n, where kappa is the largest of the extinction coefficients that
    are specified for all sides as functions of the relative depth. *)
Definition asked_boundary (g : grid RN) (q : request) (chi : list nat -> C) : Prop :=
  match q_bound q with
  | None => forall p, chi p = 0
  | Some (b, background) => exists t f, upright g /\ absorbing_bound RN g t f = Ok b /\
      forall p, CSum.inside (points_of g) p -> exists (n : C) (kappa : R), principal_root background n /\
        chi p = (n + Ci * RtoC kappa) * (n + Ci * RtoC kappa) - background /\
        largest kappa (fun y => exists a s x h, (a < ndim RN g)%nat /\ (s < 2)%nat /\ sided t a s x /\ sided f a s h /\
          y = profile h x (edge_distance g a s (nth a p 0%nat)))
  end.

(** The same arguments, but for the grid. *)
Definition with_grid (q : request) (a : grid_arg) : request :=
  {| q_grid := a; q_vectorial := q_vectorial q; q_wavenumber := q_wavenumber q; q_angular_frequency := q_angular_frequency q; q_vacuum_wavelength := q_vacuum_wavelength q;
     q_current_density := q_current_density q; q_source_distribution := q_source_distribution q; q_epsilon := q_epsilon q; q_refractive_index := q_refractive_index q;
     q_xi := q_xi q; q_zeta := q_zeta q; q_mu := q_mu q; q_bound := q_bound q |}.
