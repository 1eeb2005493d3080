(** Model of the function solve and of the whole constructor of Solution, from the arguments as the user gives them to the first state of the object:
    python/macromax/solver.py lines 25-89 and 133-268.  The parts are modelled in Entry_Model (the grid and the coordinates), Setup_Model (the wavenumber
    and the choice between vectors and scalars), Bound_Model, Array_Model, Material_Model, Choice_Model and Run_Model; here they are joined.
    Simplified: the initial field has its default value 0; the bound is an AbsorbingBound or None; exact numbers. *)
From Coq Require Import Reals List Arith ZArith Bool.
Require Import Verif.Base Verif.Num Verif.Grid_Model Verif.Bound_Model Verif.Entry_Model Verif.Setup_Model.
Require Import Verif.Cplx Verif.CSum Verif.Field Verif.Fourier_Model Verif.Vec_Model Verif.Solver_Model Verif.Derived_Model Verif.Choice_Model Verif.Array_Model Verif.Material_Model Verif.Run_Model.
Import ListNotations.
Local Open Scope R_scope.
Local Open Scope C_scope.

(** What can be given for the source or a material property: an array, a function of the coordinates that returns numbers, or one that returns
    3-vectors (stacked in the first axis).  The functions are those that numpy evaluates elementwise. *)
Inductive argument : Type :=
| GivenArray (a : array)
| GivenFunction (f : list R -> C)
| GivenVector (f : list R -> nat -> C).
(** func2arr, lines 167-171: f( *grid ), where numpy broadcasts the coordinates. *)
Definition func2arr (gs : list nat) (h : grid RN) (x : argument) : result array :=
  match x with
  | GivenArray a => Ok a
  | GivenFunction f => bind (items h) (fun xs =>
      if forallb (Entry_Model.broadcasts gs) xs then Ok (Arr gs (fun p => f (map (fun c => at_index c p) xs))) else Err ValueError)
  | GivenVector f => bind (items h) (fun xs =>
      if forallb (Entry_Model.broadcasts gs) xs then
        Ok (Arr (3%nat :: gs) (fun p => f (map (fun c => at_index c (tl p)) xs) (nth 0 p 0%nat)))
      else Err ValueError)
  end.
Definition optional (gs : list nat) (h : grid RN) (x : option argument) : result (option array) :=
  match x with None => Ok None | Some x => rmap Some (func2arr gs h x) end.

(** The arguments of solve and of Solution, lines 25-33 and 93-102. *)
Record request : Type := {
  q_grid : grid_arg;
  q_vectorial : option bool;
  q_wavenumber : R;
  q_angular_frequency : option R;
  q_vacuum_wavelength : option R;
  q_current_density : option argument;
  q_source_distribution : option argument;
  q_epsilon : option argument;
  q_refractive_index : option argument;
  q_xi : argument;                        (** by default the number 0 *)
  q_zeta : argument;                      (** by default the number 0 *)
  q_mu : argument;                        (** by default the number 1 *)
  q_bound : option (bound RN * C)         (** with its background permittivity *)
}.

(** The shape and the sample pitch of the grid. *)
Definition raster_for (h : grid RN) : raster :=
  {| rshape := map (fun i => Z.to_nat (shape RN h i)) (seq 0 (ndim RN h)); rstep := map (fun i => at_ RN (step RN h) i) (seq 0 (ndim RN h)) |}.

(** Lines 174-185: the source distribution and the vectorial argument after this. *)
Definition read_source (u : si) (h : grid RN) (k0 : R) (q : request) : result (array * option bool) :=
  let gs := rshape (raster_for h) in
  match q_source_distribution q with
  | Some x => rmap (fun a => (a, q_vectorial q)) (func2arr gs h x)
  | None =>
      bind (match q_current_density q with
            | Some x => rmap (fun a => (a, q_vectorial q)) (func2arr gs h x)
            | None => let b := match q_vectorial q with Some b => b | None => true end in
                      Ok (Arr ((if b then 3 else 1)%nat :: gs) (fun _ => 0), Some b)
            end)
        (fun jv => Ok (amap (fun x => x * (- Ci * RtoC (angular_frequency u k0) * RtoC (mu_0 u))) (fst jv), snd jv))
  end.
(** The electric susceptibility of an absorbing bound, bound.py lines 185-193, as an array on the grid of the bound. *)
Definition bound_array (b : option (bound RN * C)) : result (option array) :=
  match b with
  | None => Ok None
  | Some (b, background) => bind (extinction RN b) (fun kappa =>
      Ok (Some (Arr (rshape (raster_for (b_grid RN b))) (fun p => absorbing_susceptibility background (kappa (fun a => nth a p 0%nat))))))
  end.

(** The tensor field and the vector field that an array in its canonical form stands for; numpy broadcasts its singleton axes. *)
Definition tensor_of (a : array) : tensor :=
  if is_scalar a then TScalar (fun p => bget a (0%nat :: 0%nat :: p)) else TMatrix (fun i j p => bget a (i :: j :: p)).
Definition vector_of (nd : nat) (a : array) : vfield := fun c p => bget (to_matrix_field nd a) (c :: 0%nat :: p).

(** The constructor, lines 133-268.  [settled] are the values on which scipy.optimize.fmin settles, [thick] is the limit of the attenuation of the kernel. *)
Definition new_solution (u : si) (eps : R) (settled : R * R) (thick : option R) (q : request) : result solution :=
  bind (solution_grid (q_grid q)) (fun h =>
  let g := raster_for h in
  let gs := rshape g in
  let nd := ndim RN h in
  let k0 := choose_wavenumber (c_light u) (q_angular_frequency q) (q_vacuum_wavelength q) (q_wavenumber q) in
  bind (read_source u h k0 q) (fun source =>
  let v := choose_vectorial gs (snd source) {| sshape := ashape (fst source); stype := DComplex128 |} in
  bind (func2arr gs h (q_mu q)) (fun mu =>
  bind (optional gs h (q_epsilon q)) (fun epsilon =>
  bind (match q_epsilon q with Some _ => Ok None | None => optional gs h (q_refractive_index q) end) (fun index =>
  bind (bound_array (q_bound q)) (fun chi =>
  bind (read_materials (if v then 3 else 1)%nat nd epsilon index mu {| b_electric := chi; b_magnetic := None |}) (fun em =>
  bind (func2arr gs h (q_xi q)) (fun xi =>
  bind (func2arr gs h (q_zeta q)) (fun zeta =>
  let epsilon := tensor_of (fst em) in
  let xi := tensor_of (to_matrix_field nd xi) in
  let zeta := tensor_of (to_matrix_field nd zeta) in
  let mu := tensor_of (snd em) in
  Ok {| wavenumber := k0; bound_chi := match chi with None => None | Some a => Some (fun p => bget a p) end;
        operators := Choice_Model.construct eps g k0 v epsilon xi zeta mu settled thick (vector_of nd (fst source));
        field := fun _ _ => 0; prev_norm := Inf; iteration := 0%Z; residue_cache := None |}))))))))).
(** The function solve, lines 25-89: None if it takes more than [fuel] iterations. *)
Definition solve {W} (u : si) (eps : R) (settled : R * R) (thick : option R) (fuel : nat) (q : request) (cb : callback_arg W) (rtol : R) (maxiter : option Z) (w : W) :
    result (option (outcome W)) :=
  bind (new_solution u eps settled thick q) (fun s => Ok (solve_function fuel s cb rtol maxiter w)).
