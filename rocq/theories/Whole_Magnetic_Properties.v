(** From the arguments of solve to its result, for magnetic and chiral materials: C154. *)
From Coq Require Import Reals Lra Lia List Arith ZArith Bool.
Require Import Verif.Base Verif.Num Verif.Grid_Model Verif.Grid_Spec Verif.Grid_Proofs Verif.Bound_Model Verif.Bound_Spec Verif.Bound_Proofs Verif.Entry_Model Verif.Entry_Spec.
Require Import Verif.Cplx Verif.CSum Verif.Field Verif.Fourier_Model Verif.Fourier_Spec Verif.Vec_Model Verif.Solver_Model Verif.Solver_Spec Verif.Derived_Model Verif.Derived_Spec Verif.Modes_Model Verif.Choice_Model.
Require Import Verif.Array_Model Verif.Material_Model Verif.Material_Spec Verif.Material_More Verif.Run_Model Verif.Run_Spec Verif.Magnetic_Spec.
Require Import Verif.Whole_Model Verif.Whole_Spec Verif.Whole_Proofs Verif.Whole_Results Verif.Whole_Magnetic.
Import ListNotations.
Local Open Scope R_scope.
Local Open Scope C_scope.

(** C154.  The arguments state a problem of electromagnetism: the permittivity e (or the square of the refractive index, see [asked_materials]) plus the
    susceptibility chi of the boundary, the couplings x and z, the permeability m, of which nu is the inverse, and the current density J.
    If Maxwell's equations have a solution, and the medium has no gain, then solve returns, without exception, when a limit is reached. *)
Theorem magnetic_arguments_solve_ends : forall (W : Type) u eps settled thick q g crd k0 src J e x z m nu kappa chi (w : W),
  (0 < eps)%R -> (2 * eps <= 1)%R -> physical u ->
  q_grid q = AGrid g -> Entry_Spec.spatial g -> (ndim RN g <= 3)%nat -> (forall i, (i < ndim RN g)%nat -> coordinates g i = Ok (crd i)) ->
  means_tensor g crd (q_xi q) x -> means_tensor g crd (q_zeta q) z -> asked_wavenumber u q k0 -> (0 < k0)%R -> asked_kind g q true ->
  asked_source u g crd k0 q true src -> (forall c p, src c p = driving u k0 J c p) -> asked_materials g crd q e m -> asked_boundary g q chi ->
  inverse_of (points_of g) m nu -> is_magnetic (points_of g) x z m = true ->
  (20 * sqrt (2 * sqrt eps) * ((1 + highest_frequency (sampled g) k0) * (1 + highest_frequency (sampled g) k0)) < snd settled * snd settled)%R ->
  (forall G, vagree 3 (points_of g) (coupling x z nu G) (fun c p => kappa * G c p)) ->
  forall E H rtol maxiter, dissipates (points_of g) (plus_isotropic e chi) x z m 0 -> maxwell u (sampled g) k0 (plus_isotropic e chi) x z m E H J -> (0 < rtol)%R ->
  exists fuel s, solve u eps settled thick fuel q NoneGiven rtol maxiter w = Ok (Some (Returned w s)) /\ wavenumber s = k0 /\ limit_reached maxiter rtol s.
Proof. exact @magnetic_ends. Qed.
Print Assumptions magnetic_arguments_solve_ends.

(** C154.  If the medium absorbs everywhere, then there is exactly one pair of fields E and H that obeys Maxwell's equations, and the object that solve
    returns reports both of these up to a constant of the problem times the tolerance. *)
Theorem magnetic_arguments_solve_accurate : forall (W : Type) u eps settled thick q g crd k0 src J e x z m nu kappa chi (w : W),
  (0 < eps)%R -> (2 * eps <= 1)%R -> physical u ->
  q_grid q = AGrid g -> Entry_Spec.spatial g -> (ndim RN g <= 3)%nat -> (forall i, (i < ndim RN g)%nat -> coordinates g i = Ok (crd i)) ->
  means_tensor g crd (q_xi q) x -> means_tensor g crd (q_zeta q) z -> asked_wavenumber u q k0 -> (0 < k0)%R -> asked_kind g q true ->
  asked_source u g crd k0 q true src -> (forall c p, src c p = driving u k0 J c p) -> asked_materials g crd q e m -> asked_boundary g q chi ->
  inverse_of (points_of g) m nu -> is_magnetic (points_of g) x z m = true ->
  (20 * sqrt (2 * sqrt eps) * ((1 + highest_frequency (sampled g) k0) * (1 + highest_frequency (sampled g) k0)) < snd settled * snd settled)%R ->
  (forall G, vagree 3 (points_of g) (coupling x z nu G) (fun c p => kappa * G c p)) ->
  forall loss, (0 < loss)%R -> dissipates (points_of g) (plus_isotropic e chi) x z m loss ->
  exists E H K, maxwell u (sampled g) k0 (plus_isotropic e chi) x z m E H J /\
    (forall E' H', maxwell u (sampled g) k0 (plus_isotropic e chi) x z m E' H' J -> vagree 3 (points_of g) E' E /\ vagree 3 (points_of g) H' H) /\
    forall rtol, (0 < rtol)%R -> exists fuel s, solve u eps settled thick fuel q NoneGiven rtol None w = Ok (Some (Returned w s)) /\
      (magnitude s (fun c p => get_E s c p - E c p)%C <= K * rtol * magnitude s (get_E s))%R /\
      (magnitude s (fun c p => magnetizing_field u (operators s) (wavenumber s) (field s) c p - H c p)%C <= K * rtol * magnitude s (get_E s))%R.
Proof. exact @magnetic_accurate. Qed.
Print Assumptions magnetic_arguments_solve_accurate.

(** A two-dimensional problem with an absorbing boundary, a chirality given as numbers, and a function for the refractive index, which is negative on
    one side; the source is given as a current density. *)
Definition metal (x : list R) : C := (if Rlt_dec (nth 0 x 0%R) 0 then (-2)%R else 2%R, / 2)%R.
Definition wires (x : list R) (c : nat) : C := match c with 2%nat => RtoC (nth 1 x 0%R) | _ => 0 end.
Definition flips (x : list R) : C := if Rlt_dec (nth 0 x 0%R) 0 then - RtoC 1 else RtoC 1.
Example magnetic_whole_hypotheses : let eps := (1 / 1000000 * (1 / 1000000) * (1 / 1000000 * (1 / 1000000)))%R in let u := {| c_light := 1; mu_0 := 1; epsilon_0 := 1 |} in
  (0 < eps)%R /\ (2 * eps <= 1)%R /\ physical u /\
  exists q g crd k0 src J e x z m nu chi, q_grid q = AGrid g /\ q_bound q <> None /\ Entry_Spec.spatial g /\ ndim RN g = 2%nat /\ (forall i, (i < ndim RN g)%nat -> coordinates g i = Ok (crd i)) /\
    means_tensor g crd (q_xi q) x /\ means_tensor g crd (q_zeta q) z /\ asked_wavenumber u q k0 /\ (0 < k0)%R /\ asked_kind g q true /\
    asked_source u g crd k0 q true src /\ (forall c p, src c p = driving u k0 J c p) /\ asked_materials g crd q e m /\ asked_boundary g q chi /\
    inverse_of (points_of g) m nu /\ is_magnetic (points_of g) x z m = true /\
    (20 * sqrt (2 * sqrt eps) * ((1 + highest_frequency (sampled g) k0) * (1 + highest_frequency (sampled g) k0)) < 1 * 1)%R /\
    (forall G, vagree 3 (points_of g) (coupling x z nu G) (fun c p => 0 * G c p)) /\
    dissipates (points_of g) (plus_isotropic e chi) x z m 1.
Proof.
  intros eps u. unfold eps. rewrite sqrt_square by lra. refine (conj _ (conj _ (conj _ _))); try lra.
  { unfold physical, u. cbn. lra. }
  assert (exists g, upright g /\ Entry_Spec.spatial g /\ ndim RN g = 2%nat /\ sampled g = {| rshape := [3; 8]%nat; rstep := [/ 2; / 2]%R |} /\ points_of g = [3; 8]%nat) as (g & U & Sp & N & Sg & Pg).
  { set (g0 := Build_grid RN 2 (fun i => nth i [3; 8]%Z 1%Z) (Build_vec RN DFlt (fun _ => (/ 2)%R)) (Build_vec RN DFlt (fun _ => 0%R)) (fun _ => false) (fun _ => true) (fun _ => true) true false).
    exists g0. assert (Grid_Spec.regular g0) as Rg by (split; [reflexivity|]; split; [discriminate|]; intros [|[|i]] Hi; cbn in *; lia).
    refine (conj (conj Rg (conj eq_refl _)) (conj (conj Rg (conj eq_refl _)) (conj eq_refl (conj eq_refl eq_refl)))); intros i Hi; unfold step_of, at_; cbn; split; (lra || reflexivity). }
  destruct (linear_created g (SMatrix [[0; 0]; [2; 3]]%R) (SVector [/ 4; / 2]%R)) as (b & B).
  { cbn. rewrite N. split; [auto|]. exists 2%nat. split; [auto|]. split; [discriminate|]. intros r [<-|[<-|[]]]; reflexivity. }
  { cbn. auto. }
  set (q := {| q_grid := AGrid g; q_vectorial := None; q_wavenumber := 1; q_angular_frequency := Some 1%R; q_vacuum_wavelength := None; q_current_density := Some (GivenVector wires);
    q_source_distribution := None; q_epsilon := None; q_refractive_index := Some (GivenFunction metal); q_xi := GivenArray (number (0, / 4)%R); q_zeta := GivenArray (number (0, - / 4)%R);
    q_mu := GivenArray (number (RtoC 1)); q_bound := Some (b, RtoC 4) |}).
  set (crd := axis_range RN g). destruct (boundary_exists g q b (RtoC 4) _ _ U B eq_refl) as (chi & Hchi). pose proof PI_RGT_0 as Hpi. pose proof PI_4 as Hp4.
  exists q, g, crd, 1%R, (fun c p => - Ci * RtoC (1 * 1) * RtoC 1 * wires (position g crd p) c), (fun c p => - wires (position g crd p) c),
    (TScalar (fun p => flips (position g crd p) * (metal (position g crd p) * metal (position g crd p)))),
    (TScalar (fun _ => (0, / 4)%R)), (TScalar (fun _ => (0, - / 4)%R)), (TScalar (fun p => flips (position g crd p))), (TScalar (fun p => flips (position g crd p))), chi.
  assert (forall y, flips y * flips y = 1) as Hflip by (intros y; unfold flips; destruct (Rlt_dec _ _); ring).
  refine (conj eq_refl (conj _ (conj Sp (conj N (conj _ (conj _ (conj _ (conj _ (conj Rlt_0_1 (conj _ (conj _ (conj _ (conj _ (conj Hchi (conj _ (conj _ (conj _ (conj _ _)))))))))))))))))).
  - discriminate.
  - intros i Hi. apply coordinates_range; [apply Sp|exact Hi].
  - apply (given_number (points_of g)).
  - apply (given_number (points_of g)).
  - cbn. ring.
  - cbn. split; trivial.
  - cbn. exists (fun c p => wires (position g crd p) c). split; [split; reflexivity|]. intros c p. reflexivity.
  - intros c p. unfold driving. cbn [c_light mu_0 u]. ring.
  - cbn. exists (TScalar (fun p => metal (position g crd p))), (TScalar (fun _ => RtoC 1)).
    refine (conj eq_refl (conj (given_number (points_of g) (RtoC 1)) (conj _ _))); cbn; intros p; unfold flips, metal; cbn; destruct (Rlt_dec _ _); split; intros H; try lra; ring.
  - intros F. split; intros c p _ _; cbn [tapply]; rewrite Cmult_assoc, Hflip; ring.
  - rewrite Pg. unfold is_magnetic. apply negb_true_iff, andb_false_iff. left. apply andb_false_iff. left. unfold allclose, all_over. apply negb_false_iff. cbn [any_over]. apply existsb_exists. exists 1%nat. split; [cbn; tauto|].
    apply existsb_exists. exists 0%nat. split; [cbn; tauto|]. apply negb_true_iff. cbn [elements forallb]. apply andb_false_iff. left. unfold close, Rleb.
    replace (Cmod ((0, / 4)%R - RtoC 0)) with (/ 4)%R; [|unfold Cmod; cbn; replace ((0 + - 0) * ((0 + - 0) * 1) + (/ 4 + - 0) * ((/ 4 + - 0) * 1))%R with (/ 4 * / 4)%R by ring; rewrite sqrt_square; lra].
    rewrite Cmod_0. destruct (Rle_dec _ _); [lra|reflexivity].
  - assert (highest_frequency (sampled g) 1 <= 12)%R as Hh.
    { rewrite Sg. unfold highest_frequency. cbn [rstep fold_right]. unfold Rdiv at 1. rewrite Rinv_1, Rmult_1_r. rewrite <- (sqrt_square 12) by lra. apply sqrt_le_1_alt. replace (PI / / 2)%R with (2 * PI)%R by field. nra. }
    assert (0 <= highest_frequency (sampled g) 1)%R as Hh0 by (unfold highest_frequency; apply Rmult_le_pos; [apply sqrt_pos|lra]).
    assert (sqrt (2 * (1 / 1000000 * (1 / 1000000))) <= 2 / 1000000)%R as S1 by (rewrite <- (sqrt_square (2 / 1000000)) by lra; apply sqrt_le_1_alt; lra).
    pose proof (sqrt_pos (2 * (1 / 1000000 * (1 / 1000000)))) as S0. set (a := sqrt _) in *. set (hf := highest_frequency _ _) in *.
    assert ((1 + hf) * (1 + hf) <= 169)%R by nra. nra.
  - intros G c p _ _. unfold coupling. cbn [tapply]. apply C_eq; cbn; ring.
  - intros p E H Hp at_p. unfold at_p. pose proof (boundary_passive g q chi p Hchi Hp) as Hc. cbn [plus_isotropic tapply].
    set (fl := flips (position g crd p)). assert (snd fl = 0%R) as F0 by (unfold fl, flips; destruct (Rlt_dec _ _); cbn; lra).
    set (ee := fl * (metal (position g crd p) * metal (position g crd p)) + chi p).
    assert (1 <= snd ee)%R as Ee.
    { unfold ee, fl, flips, metal. destruct (chi p) as [c1 c2]. cbn in Hc |- *. destruct (Rlt_dec _ _); cbn; lra. }
    clearbody fl ee. destruct fl as [f1 f2], ee as [e1 e2]. cbn [fst snd] in F0, Ee. subst f2.
    cbn [rsum csum]. cbn [snd Cplus Cmult Cconj fst]. 
    assert (forall i, Cmod (E i) * Cmod (E i) = fst (E i) * fst (E i) + snd (E i) * snd (E i))%R as Hcm.
    { intros i. unfold Cmod. rewrite sqrt_sqrt by (cbn; nra). cbn. ring. }
    rewrite !Hcm. assert (forall i, 0 <= fst (E i) * fst (E i) + snd (E i) * snd (E i))%R as Hps by (intros i; nra).
    pose proof (Rmult_le_compat_r _ _ _ (Hps 0%nat) Ee). pose proof (Rmult_le_compat_r _ _ _ (Hps 1%nat) Ee). pose proof (Rmult_le_compat_r _ _ _ (Hps 2%nat) Ee). cbn. nra.
Qed.
