(** From the arguments of solve to its result: C149. *)
From Coq Require Import Reals Lra Lia List Arith ZArith Bool.
Require Import Verif.Base Verif.Num Verif.Grid_Model Verif.Grid_Spec Verif.Grid_Proofs Verif.Grid_Rebuild Verif.Bound_Model Verif.Bound_Spec Verif.Bound_Proofs Verif.Entry_Model Verif.Entry_Spec.
Require Import Verif.Cplx Verif.CSum Verif.Field Verif.Fourier_Model Verif.Fourier_Spec Verif.Vec_Model Verif.Solver_Model Verif.Solver_Spec Verif.Derived_Model Verif.Array_Model Verif.Material_Model Verif.Material_Spec Verif.Run_Model Verif.Run_Spec.
Require Import Verif.Whole_Model Verif.Whole_Spec Verif.Whole_Results.
Import ListNotations.
Local Open Scope R_scope.
Local Open Scope C_scope.

(** C149.  If the problem that the arguments state has a solution, and the medium has no gain, then solve returns, without exception, when a limit is reached. *)
Theorem arguments_solve_ends : forall (W : Type) u eps settled thick q g crd v k0 m src t chi (w : W),
  (0 < eps)%R -> (2 * eps <= 1)%R -> (0 < m)%R -> (800 * sqrt eps * (m * m) < 1)%R -> (0 < c_light u)%R ->
  q_grid q = AGrid g -> Entry_Spec.spatial g -> (v = true -> (ndim RN g <= 3)%nat) -> (forall i, (i < ndim RN g)%nat -> coordinates g i = Ok (crd i)) ->
  q_xi q = GivenArray (number 0) -> q_zeta q = GivenArray (number 0) -> q_mu q = GivenArray (number (RtoC m)) -> asked_wavenumber u q k0 -> k0 <> 0%R -> asked_kind g q v -> asked_source u g crd k0 q v src ->
  asked_medium g crd q t -> asked_boundary g q chi -> fits v t ->
  forall E rtol maxiter, let n := (if v then 3 else 1)%nat in
  absorbs n (points_of g) (plus_isotropic t chi) 0 -> wave_equation v (sampled g) k0 (/ m) (plus_isotropic t chi) E src -> (0 < rtol)%R ->
  exists fuel s, solve u eps settled thick fuel q NoneGiven rtol maxiter w = Ok (Some (Returned w s)) /\ wavenumber s = k0 /\ limit_reached maxiter rtol s.
Proof. exact @whole_ends. Qed.
Print Assumptions arguments_solve_ends.

(** C149.  If the medium absorbs everywhere, then there is exactly one solution, and solve returns it up to a constant of the problem times the tolerance. *)
Theorem arguments_solve_accurate : forall (W : Type) u eps settled thick q g crd v k0 m src t chi (w : W),
  (0 < eps)%R -> (2 * eps <= 1)%R -> (0 < m)%R -> (800 * sqrt eps * (m * m) < 1)%R -> (0 < c_light u)%R ->
  q_grid q = AGrid g -> Entry_Spec.spatial g -> (v = true -> (ndim RN g <= 3)%nat) -> (forall i, (i < ndim RN g)%nat -> coordinates g i = Ok (crd i)) ->
  q_xi q = GivenArray (number 0) -> q_zeta q = GivenArray (number 0) -> q_mu q = GivenArray (number (RtoC m)) -> asked_wavenumber u q k0 -> k0 <> 0%R -> asked_kind g q v -> asked_source u g crd k0 q v src ->
  asked_medium g crd q t -> asked_boundary g q chi -> fits v t ->
  forall loss, let n := (if v then 3 else 1)%nat in
  (0 < loss)%R -> absorbs n (points_of g) (plus_isotropic t chi) loss ->
  exists E K, wave_equation v (sampled g) k0 (/ m) (plus_isotropic t chi) E src /\
    (forall E', wave_equation v (sampled g) k0 (/ m) (plus_isotropic t chi) E' src -> vagree n (points_of g) E' E) /\
    forall rtol, (0 < rtol)%R -> exists fuel s, solve u eps settled thick fuel q NoneGiven rtol None w = Ok (Some (Returned w s)) /\
      (magnitude s (fun c p => get_E s c p - E c p)%C <= K * rtol * magnitude s (get_E s))%R.
Proof. exact @whole_accurate. Qed.
Print Assumptions arguments_solve_accurate.

(** An isotropic refractive index that is not negative and does not amplify, with any absorbing boundary, makes a medium without gain. *)
Theorem index_and_boundary_passive : forall (v : bool) g q chi (f : sfield) loss, asked_boundary g q chi -> (forall p, CSum.inside (points_of g) p -> (loss <= 2 * fst (f p) * snd (f p))%R) ->
  absorbs (if v then 3 else 1) (points_of g) (plus_isotropic (square (TScalar f)) chi) loss.
Proof. exact index_absorbs. Qed.
Print Assumptions index_and_boundary_passive.

(** C149.  Ranges of numbers for the grid, or the numbers of a single range, stand for the grid that has these coordinates. *)
Theorem arguments_ranges : forall d rs, rs <> [] -> (forall r, In r rs -> is_range r /\ exists x y, In x r /\ In y r /\ x <> y) ->
  exists g, Entry_Spec.spatial g /\ ndim RN g = length rs /\ (forall i, (i < length rs)%nat -> coordinates g i = Ok (nth i rs [])) /\
    forall (W : Type) u eps settled thick fuel q (cb : callback_arg W) rtol maxiter w,
      solve u eps settled thick fuel (with_grid q (ARanges d rs)) cb rtol maxiter w = solve u eps settled thick fuel (with_grid q (AGrid g)) cb rtol maxiter w /\
      forall r, rs = [r] -> solve u eps settled thick fuel (with_grid q (ANumbers d r)) cb rtol maxiter w = solve u eps settled thick fuel (with_grid q (AGrid g)) cb rtol maxiter w.
Proof. exact whole_ranges. Qed.
Print Assumptions arguments_ranges.

(** A two-dimensional vector problem with a function for the refractive index and one for the source, a vacuum wavelength, and boundaries of different
    thicknesses. *)
Definition glass (x : list R) : C := (2 + nth 0 x 0 * nth 0 x 0, / 4)%R.
Definition dipoles (x : list R) (c : nat) : C := match c with 2%nat => RtoC (nth 1 x 0%R) | _ => 0 end.
Example whole_hypotheses : let eps := (1 / 1000 * (1 / 1000) * (1 / 1000 * (1 / 1000)))%R in let u := {| c_light := 3; mu_0 := 1; epsilon_0 := 1 |} in
  (0 < eps)%R /\ (2 * eps <= 1)%R /\ (800 * sqrt eps * (1 * 1) < 1)%R /\
  exists q g crd k0 src t chi, q_grid q = AGrid g /\ q_bound q <> None /\ Entry_Spec.spatial g /\ ndim RN g = 2%nat /\ (forall i, (i < ndim RN g)%nat -> coordinates g i = Ok (crd i)) /\
    q_xi q = GivenArray (number 0) /\ q_zeta q = GivenArray (number 0) /\ q_mu q = GivenArray (number (RtoC 1)) /\ asked_wavenumber u q k0 /\ k0 <> 0%R /\ asked_kind g q true /\ asked_source u g crd k0 q true src /\
    asked_medium g crd q t /\ asked_boundary g q chi /\ fits true t /\ absorbs 3 (points_of g) (plus_isotropic t chi) 1.
Proof.
  intros eps u. unfold eps. rewrite sqrt_square by lra. refine (conj _ (conj _ (conj _ _))); try lra.
  assert (exists g, upright g /\ Entry_Spec.spatial g /\ ndim RN g = 2%nat) as (g & U & Sp & N).
  { set (g0 := Build_grid RN 2 (fun i => nth i [3; 8]%Z 1%Z) (Build_vec RN DFlt (fun _ => (/ 2)%R)) (Build_vec RN DFlt (fun _ => 0%R)) (fun _ => false) (fun _ => true) (fun _ => true) true false).
    exists g0. assert (Grid_Spec.regular g0) as Rg by (split; [reflexivity|]; split; [discriminate|]; intros [|[|i]] Hi; cbn in *; lia).
    refine (conj (conj Rg (conj eq_refl _)) (conj (conj Rg (conj eq_refl _)) eq_refl)); intros i Hi; unfold step_of, at_; cbn; split; (lra || reflexivity). }
  destruct (linear_created g (SMatrix [[0; 0]; [2; 3]]%R) (SVector [/ 4; / 2]%R)) as (b & B).
  { cbn. rewrite N. split; [auto|]. exists 2%nat. split; [auto|]. split; [discriminate|]. intros r [<-|[<-|[]]]; reflexivity. }
  { cbn. auto. }
  set (q := {| q_grid := AGrid g; q_vectorial := None; q_wavenumber := 1; q_angular_frequency := None; q_vacuum_wavelength := Some (2 * PI)%R; q_current_density := None;
    q_source_distribution := Some (GivenVector dipoles); q_epsilon := None; q_refractive_index := Some (GivenFunction glass); q_xi := GivenArray (number 0); q_zeta := GivenArray (number 0); q_mu := GivenArray (number (RtoC 1)); q_bound := Some (b, RtoC 4) |}).
  set (crd := axis_range RN g). destruct (boundary_exists g q b (RtoC 4) _ _ U B eq_refl) as (chi & Hchi). pose proof PI_RGT_0 as Hpi.
  exists q, g, crd, 1%R, (fun c p => dipoles (position g crd p) c), (square (TScalar (fun p => glass (position g crd p)))), chi.
  refine (conj eq_refl (conj _ (conj Sp (conj N (conj _ (conj eq_refl (conj eq_refl (conj eq_refl (conj _ (conj R1_neq_R0 (conj _ (conj _ (conj _ (conj Hchi (conj I _))))))))))))))).
  - discriminate.
  - intros i Hi. apply coordinates_range; [apply Sp|exact Hi].
  - cbn. split; [lra|ring].
  - cbn. split; trivial.
  - cbn. split; reflexivity.
  - cbn. exists (TScalar (fun p => glass (position g crd p))). split; [reflexivity|]. split; [reflexivity|]. intros p _ H. cbn in H. nra.
  - apply (index_absorbs true g q chi _ 1 Hchi). intros p _. unfold glass. cbn [fst snd]. nra.
Qed.
