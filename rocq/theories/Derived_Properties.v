(** The properties of magnetic media and of the derived fields (C20, C21, C22, C69 to C72). *)
From Coq Require Import Reals Lra Lia List Arith Bool.
Require Import Verif.Base Verif.Cplx Verif.CSum Verif.Field Verif.Fourier_Model Verif.Fourier_Spec Verif.Fourier_Proofs.
Require Import Verif.Vec_Model Verif.Vec_Spec Verif.Vec_Proofs Verif.Solver_Model Verif.Solver_Spec Verif.Solver_Proofs.
Require Import Verif.Solver_Convergence Verif.Solver_Choice Verif.Solver_Properties.
Require Import Verif.Derived_Model Verif.Derived_Spec Verif.Derived_Tensor Verif.Solver_Maxwell Verif.Solver_Bounded Verif.Derived_Proofs Verif.Derived_Density.
Import ListNotations.
Local Open Scope R_scope.
Local Open Scope C_scope.

(** ** C20 *)
(** Maxwell's equations hold for the reported fields exactly if xi mu^-1 + mu^-1 zeta commutes with the curl of the field. *)
Theorem magnetic_fixed_point_maxwell_iff : forall u g k0 alpha beta eps xi zeta mu nu J F,
  physical u -> solvable true g k0 -> snd alpha <> 0%R -> beta <> 0%R -> inverse_of (rshape g) mu nu ->
  let o := prepare (scaled k0 g) true true alpha beta eps xi zeta mu (driving u k0 J) in
  let E := electric_field k0 F in
  operator_injective 3 (rshape g) (chi_op o) -> vagree 3 (rshape g) (update o F) (fun _ _ => 0) ->
  (maxwell u g k0 eps xi zeta mu E (magnetizing_field u o k0 F) J <->
   vagree 3 (rshape g) (curl g 3 (coupling xi zeta nu E)) (coupling xi zeta nu (curl g 3 E))).
Proof. exact mf_maxwell_iff. Qed.
Print Assumptions magnetic_fixed_point_maxwell_iff.

(** What holds of C20: media whose coupling xi mu^-1 + mu^-1 zeta is the same multiple of the identity everywhere, for
    every sufficiently large imaginary part of alpha.  Missing: all other couplings, for which the property is false. *)
Theorem magnetic_fixed_point_maxwell_partial : forall u g k0 alpha_r beta eps xi zeta mu nu J kappa,
  physical u -> solvable true g k0 -> beta <> 0%R -> inverse_of (rshape g) mu nu ->
  (forall G, vagree 3 (rshape g) (coupling xi zeta nu G) (fun c p => kappa * G c p)) ->
  exists A, forall (alpha : C) F, fst alpha = alpha_r -> (A < Rabs (snd alpha))%R ->
  let o := prepare (scaled k0 g) true true alpha beta eps xi zeta mu (driving u k0 J) in
  vagree 3 (rshape g) (update o F) (fun _ _ => 0) ->
  maxwell u g k0 eps xi zeta mu (electric_field k0 F) (magnetizing_field u o k0 F) J.
Proof.
  intros u g k0 ar beta eps xi zeta mu nu J kappa Hu Hs Hb Hnu Hc.
  destruct (chi_injective_large g k0 beta eps xi zeta mu nu (driving u k0 J) Hs Hb Hnu ar) as (A & HA).
  exists (Rmax 0 A). intros alpha F Hr Hi o H.
  assert (snd alpha <> 0%R) as Ha by (intros E; rewrite E, Rabs_R0 in Hi; pose proof (Rmax_l 0 A); lra).
  exact (proj2 (mf_maxwell_iff u g k0 alpha beta eps xi zeta mu nu J F Hu Hs Ha Hb Hnu (HA alpha Hr (Rle_lt_trans _ _ _ (Rmax_r 0 A) Hi)) H)
    (uniform_coupling g k0 xi zeta nu kappa F (proj2 (proj2 Hs) eq_refl) Hc)).
Qed.
Print Assumptions magnetic_fixed_point_maxwell_partial.

Theorem maxwell_solution_is_fixed_point_partial : forall u g k0 alpha beta eps xi zeta mu nu J F H kappa,
  physical u -> solvable true g k0 -> snd alpha <> 0%R -> beta <> 0%R -> inverse_of (rshape g) mu nu ->
  (forall G, vagree 3 (rshape g) (coupling xi zeta nu G) (fun c p => kappa * G c p)) ->
  let o := prepare (scaled k0 g) true true alpha beta eps xi zeta mu (driving u k0 J) in
  maxwell u g k0 eps xi zeta mu (electric_field k0 F) H J ->
  vagree 3 (rshape g) (update o F) (fun _ _ => 0) /\ vagree 3 (rshape g) H (magnetizing_field u o k0 F).
Proof.
  intros u g k0 alpha beta eps xi zeta mu nu J F H kappa Hu Hs Ha Hb Hnu Hc o HM.
  exact (mf_fixed_of_maxwell u g k0 alpha beta eps xi zeta mu nu J F Hu Hs Ha Hb Hnu H
    (uniform_coupling g k0 xi zeta nu kappa F (proj2 (proj2 Hs) eq_refl) Hc) HM).
Qed.
Print Assumptions maxwell_solution_is_fixed_point_partial.

(** C20 is false of the code: for every alpha and beta, there is a medium with a fixed point for which no magnetizing field
    satisfies Maxwell's equations. *)
Theorem bianisotropic_maxwell_refuted : forall u alpha beta, physical u -> snd alpha <> 0%R -> beta <> 0%R ->
  exists g k0 eps xi zeta mu nu J F, solvable true g k0 /\ inverse_of (rshape g) mu nu /\
    vagree 3 (rshape g) (update (prepare (scaled k0 g) true true alpha beta eps xi zeta mu (driving u k0 J)) F) (fun _ _ => 0) /\
    forall H, ~ maxwell u g k0 eps xi zeta mu (electric_field k0 F) H J.
Proof.
  intros u alpha beta Hu Ha Hb. exists line, 1%R, (tuniform 1), tzero, zeta_y, (tuniform 1), (tuniform 1), (current_y u), wave_y.
  exact (conj line_solvable (conj (one_inverse _) (conj (line_fixed u alpha beta Hu Ha Hb) (line_not_maxwell u Hu)))).
Qed.
Print Assumptions bianisotropic_maxwell_refuted.

Definition demo_units : si := {| c_light := 2; mu_0 := / 2; epsilon_0 := / 2 |}.
Lemma demo_physical : physical demo_units.
Proof. repeat split; cbn; lra. Qed.
(** The hypotheses hold for an anisotropic permeability that varies in space. *)
Definition demo_mu : tensor := TMatrix (fun i j p => match i, j, p with 1%nat, 1%nat, [0%nat; _] => RtoC 2 | 0%nat, 1%nat, _ => Ci | _, _, _ => eye i j end).
Definition demo_nu : tensor := TMatrix (fun i j p => match i, j, p with
  | 1%nat, 1%nat, [0%nat; _] => RtoC (/ 2) | 0%nat, 1%nat, [0%nat; _] => - Ci * RtoC (/ 2) | 0%nat, 1%nat, _ => - Ci | _, _, _ => eye i j end).
Lemma demo_inverse s : inverse_of s demo_mu demo_nu.
Proof.
  assert (RtoC 2 * RtoC (/ 2) = 1) as E by (rewrite <- RtoC_mult; f_equal; field).
  intros F. split; intros c p Hc _; (destruct c as [|[|[|c]]]; [| | |lia]); destruct p as [|[|a] [|b [|d p]]]; cbn [tapply demo_mu demo_nu csum];
    unfold eye; cbn [Nat.eqb]; try ring; ring [E].
Qed.
Definition demo_chiral : sfield := fun p => match p with [1%nat; _] => (0, 3)%R | _ => (0, 1)%R end.
Lemma demo_coupling (G : vfield) : vagree 3 (rshape demo_grid) (coupling (TScalar demo_chiral) (TScalar (fun p => - demo_chiral p)) demo_nu G) (fun c p => 0 * G c p).
Proof. intros c p Hc Hp. unfold coupling, demo_nu. cbn [tapply csum]. ring. Qed.
Example magnetic_hypotheses : physical demo_units /\ solvable true demo_grid 2 /\ inverse_of (rshape demo_grid) demo_mu demo_nu /\
  (forall G, vagree 3 (rshape demo_grid) (coupling (TScalar demo_chiral) (TScalar (fun p => - demo_chiral p)) demo_nu G) (fun c p => 0 * G c p)).
Proof.
  split; [exact demo_physical|]. split; [|split; [exact (demo_inverse _)|exact demo_coupling]].
  repeat split; try apply demo_proper; try lra; cbn; lia.
Qed.
(** Injectivity holds for that medium, for some alpha and a source. *)
Example magnetic_injective : exists alpha, snd alpha <> 0%R /\
  operator_injective 3 (rshape demo_grid) (chi_op (prepare (scaled 2 demo_grid) true true alpha 1 (TScalar demo_eps) (TScalar demo_chiral)
    (TScalar (fun p => - demo_chiral p)) demo_mu (fun _ _ => 1))).
Proof.
  destruct (chi_injective_large demo_grid 2 1 (TScalar demo_eps) (TScalar demo_chiral) (TScalar (fun p => - demo_chiral p)) demo_mu demo_nu
    (fun _ _ => 1) (proj1 (proj2 magnetic_hypotheses)) R1_neq_R0 (demo_inverse _) 1) as (A & HA).
  pose proof (Rmax_l 0 A). pose proof (Rmax_r 0 A).
  exists (1, Rmax 0 A + 1)%R. cbn [snd]. split; [lra|]. apply HA; [reflexivity|]. cbn [snd]. rewrite Rabs_pos_eq; lra.
Qed.

(** ** C21 *)
(** Whatever the electric field, the reported B satisfies Faraday's law and has no divergence. *)
Theorem reported_B : forall u g k0 o F, physical u -> solvable true g k0 -> o_grid o = scaled k0 g -> o_vectorial o = true ->
  faraday u g k0 (electric_field k0 F) (magnetic_field u o k0 F) /\
  exists d, div g 3 (magnetic_field u o k0 F) = Ok d /\ agree (rshape g) d (fun _ => 0).
Proof. intros u g k0 o F Hu Hs Hg Hv. exact (conj (fl_faraday u g k0 o F Hu Hs Hg Hv) (fl_div_B u g k0 o F Hu Hs Hg Hv)). Qed.
Print Assumptions reported_B.
(** H = B / (mu_0 mu) for a uniform permeability; B = zeta E / c + mu_0 mu H otherwise. *)
Theorem reported_H : forall u g k0 alpha beta eps m S F, physical u -> solvable true g k0 -> snd alpha <> 0%R -> beta <> 0%R -> m <> 0%R ->
  let o := prepare (scaled k0 g) true false alpha beta eps tzero tzero (tuniform (RtoC m)) S in
  vagree 3 (rshape g) (magnetizing_field u o k0 F) (fun c p => magnetic_field u o k0 F c p / (RtoC (mu_0 u) * RtoC m)).
Proof. exact nf_H. Qed.
Print Assumptions reported_H.
Theorem reported_H_magnetic : forall u g k0 alpha beta eps xi zeta mu nu S F, physical u -> solvable true g k0 -> snd alpha <> 0%R -> beta <> 0%R ->
  inverse_of (rshape g) mu nu ->
  let o := prepare (scaled k0 g) true true alpha beta eps xi zeta mu S in
  vagree 3 (rshape g) (magnetic_field u o k0 F) (constitutive_B u zeta mu (electric_field k0 F) (magnetizing_field u o k0 F)).
Proof. exact constitutive_B_reported. Qed.
Print Assumptions reported_H_magnetic.
(** The reported D satisfies Ampere's law for the current S / (i omega mu_0). *)
Theorem reported_D_ampere : forall u g k0 o F J, physical u -> solvable true g k0 -> o_grid o = scaled k0 g -> o_vectorial o = true ->
  vagree 3 (rshape g) (source_distribution o) (driving u k0 J) ->
  ampere u g k0 (magnetizing_field u o k0 F) (displacement_field u o k0 F) J.
Proof. exact ampere_driving. Qed.
Print Assumptions reported_D_ampere.
(** C72: with the current that the Solution reports, the law holds only if there is no source. *)
Theorem reported_D_ampere_refuted : forall u g k0 o F, physical u -> solvable true g k0 -> o_grid o = scaled k0 g -> o_vectorial o = true ->
  ampere u g k0 (magnetizing_field u o k0 F) (displacement_field u o k0 F) (current_density u o k0) ->
  vagree 3 (rshape g) (source_distribution o) (fun _ _ => 0).
Proof. exact ampere_reported. Qed.
Print Assumptions reported_D_ampere_refuted.
(** At a fixed point D = epsilon_0 eps E in non-magnetic media. *)
Theorem reported_D_solution : forall u g k0 alpha eps m S F, physical u -> solvable true g k0 -> fits true eps -> snd alpha <> 0%R -> m <> 0%R ->
  let o := prepare (scaled k0 g) true false alpha (/ m) eps tzero tzero (tuniform (RtoC m)) S in
  injective (rshape g) (o_chiEE o) -> vagree 3 (rshape g) (update o F) (fun _ _ => 0) ->
  vagree 3 (rshape g) (displacement_field u o k0 F) (fun c p => RtoC (epsilon_0 u) * tapply eps (electric_field k0 F) c p).
Proof. exact displacement_fixed. Qed.
Print Assumptions reported_D_solution.
(** In magnetic media D is that of the constitutive relation exactly if Maxwell's equations hold (C20). *)
Theorem reported_D_magnetic : forall u g k0 alpha beta eps xi zeta mu nu J F, physical u -> solvable true g k0 -> snd alpha <> 0%R -> beta <> 0%R ->
  inverse_of (rshape g) mu nu ->
  let o := prepare (scaled k0 g) true true alpha beta eps xi zeta mu (driving u k0 J) in
  let H := magnetizing_field u o k0 F in
  maxwell u g k0 eps xi zeta mu (electric_field k0 F) H J <->
  vagree 3 (rshape g) (displacement_field u o k0 F) (constitutive_D u eps xi (electric_field k0 F) H).
Proof. exact displacement_maxwell. Qed.
Print Assumptions reported_D_magnetic.

(** ** C22 *)
(** S is half the real part of E x conj(H); orthogonal to E and H if these are real. *)
Theorem poynting_vector : forall u k0 o F, o_vectorial o = true ->
  let E := electric_field k0 F in let H := magnetizing_field u o k0 F in
  (forall c p, (c < 3)%nat -> poynting u o k0 F c p = (/ 2 * fst (cross3 (fun i => E i p) (fun i => Cconj (H i p)) c))%R) /\
  (forall p, (forall c, (c < 3)%nat -> snd (E c p) = 0 /\ snd (H c p) = 0)%R ->
   (rsum 3 (fun c => fst (E c p) * poynting u o k0 F c p) = 0 /\ rsum 3 (fun c => fst (H c p) * poynting u o k0 F c p) = 0)%R).
Proof. intros u k0 o F Hv E H. exact (conj (fun c p Hc => ds_poynting u k0 o F Hv c p Hc) (fun p => ds_poynting_orthogonal u k0 o F Hv p)). Qed.
Print Assumptions poynting_vector.
Theorem stress_tensor_symmetric : forall u k0 o F, o_vectorial o = true ->
  let E := electric_field k0 F in let H := magnetizing_field u o k0 F in
  let w p := (epsilon_0 u * rsum 3 (fun c => Cmod (E c p) * Cmod (E c p)) + mu_0 u * rsum 3 (fun c => Cmod (H c p) * Cmod (H c p)))%R in
  (forall i j p, stress_tensor u o k0 F i j p =
    (/ 2 * (epsilon_0 u * fst (Cmult (E i p) (Cconj (E j p))) + mu_0 u * fst (Cmult (H i p) (Cconj (H j p))) - (if Nat.eqb i j then / 2 * w p else 0)))%R) /\
  (forall i j p, stress_tensor u o k0 F i j p = stress_tensor u o k0 F j i p) /\
  (forall p, rsum 3 (fun i => stress_tensor u o k0 F i i p) = (- / 4 * w p)%R).
Proof.
  intros u k0 o F Hv E H w. exact (conj (ds_stress u k0 o F Hv) (conj (ds_stress_sym u k0 o F Hv) (ds_stress_trace u k0 o F Hv))).
Qed.
Print Assumptions stress_tensor_symmetric.
(** The torque property returns the shear stresses. *)
Theorem torque_shear : forall u k0 o F, o_vectorial o = true ->
  let E := electric_field k0 F in let H := magnetizing_field u o k0 F in
  let shear i j p := (/ 2 * (epsilon_0 u * fst (Cmult (E i p) (Cconj (E j p))) + mu_0 u * fst (Cmult (H i p) (Cconj (H j p)))))%R in
  exists t, torque u o k0 F = Ok t /\ forall p, t 0%nat p = shear 1%nat 2%nat p /\ t 1%nat p = shear 0%nat 2%nat p /\ t 2%nat p = shear 0%nat 1%nat p.
Proof.
  intros u k0 o F Hv E H shear. eexists. split; [exact (ds_torque u k0 o F Hv)|]. intros p. unfold shear, E, H. rewrite !(ds_stress u k0 o F Hv). cbn [Nat.eqb]. repeat split; ring.
Qed.
Print Assumptions torque_shear.
(** The force is the real part of the divergence of the stress, in SI units, and adds up to zero. *)
Theorem total_force_vanishes : forall u g k0 o F j, solvable true g k0 -> o_grid o = scaled k0 g -> o_vectorial o = true ->
  exists f d, force_density u o k0 F j = Ok f /\ div g 3 (fun i p => RtoC (stress_tensor u o k0 F i j p)) = Ok d /\
    (forall p, f p = fst (d p)) /\ rsum_over (rshape g) f = 0%R.
Proof. intros u g k0 o F j Hs Hg Hv. exact (ds_force u g k0 o F Hs Hg Hv j). Qed.
Print Assumptions total_force_vanishes.
(** At a fixed point in an isotropic medium u = (epsilon_0 Re(eps) |E|^2 + mu_0 mu |H|^2) / 4; not negative in vacuum. *)
Theorem energy_density_solution : forall u g k0 alpha m e S F, physical u -> solvable true g k0 -> snd alpha <> 0%R -> m <> 0%R ->
  let o := prepare (scaled k0 g) true false alpha (/ m) (TScalar e) tzero tzero (tuniform (RtoC m)) S in
  let E := electric_field k0 F in let H := magnetizing_field u o k0 F in
  injective (rshape g) (o_chiEE o) -> vagree 3 (rshape g) (update o F) (fun _ _ => 0) ->
  forall p, inside (rshape g) p ->
  energy_density u o k0 F p = (/ 4 * (epsilon_0 u * fst (e p) * rsum 3 (fun c => Cmod (E c p) * Cmod (E c p)) +
                                      mu_0 u * m * rsum 3 (fun c => Cmod (H c p) * Cmod (H c p))))%R /\
  ((0 < m)%R -> (forall p, inside (rshape g) p -> 0 <= fst (e p))%R -> (0 <= energy_density u o k0 F p)%R).
Proof. exact energy_fixed. Qed.
Print Assumptions energy_density_solution.

(** ** C69: the power that the currents deliver is absorbed by the medium *)
Theorem power_is_conserved : forall u v g k0 beta eps E J, physical u -> solvable v g k0 -> wave_equation v g k0 beta eps E (driving u k0 J) ->
  let n := (if v then 3 else 1)%nat in
  (- fst (vip n (rshape g) E J) = k0 * c_light u * epsilon_0 u * snd (vip n (rshape g) E (tapply eps E)))%R.
Proof. exact power_balance. Qed.
Print Assumptions power_is_conserved.

(** ** C70: divS is the divergence of S divided by k0, so that it is the divergence only if k0 = 1 *)
Theorem div_poynting_partial : forall u g k0 o F, solvable true g k0 -> o_grid o = scaled k0 g -> o_vectorial o = true ->
  exists d d', div_poynting u o k0 F = Ok d /\ div g 3 (fun c p => RtoC (poynting u o k0 F c p)) = Ok d' /\ forall p, d' p = RtoC k0 * d p.
Proof. exact ds_div. Qed.
Print Assumptions div_poynting_partial.
(** For every wavenumber but 1 there is a problem with a wrong divergence. *)
Theorem div_poynting_refuted : forall u k0, physical u -> k0 <> 0%R -> k0 <> 1%R ->
  exists g o F d d' p, solvable true g k0 /\ o_grid o = scaled k0 g /\ o_vectorial o = true /\
    div_poynting u o k0 F = Ok d /\ div g 3 (fun c p => RtoC (poynting u o k0 F c p)) = Ok d' /\ inside (rshape g) p /\ d p <> d' p.
Proof.
  intros u k0 Hu Hk H1. destruct (beat_divergence u k0 Hu Hk H1) as (d & d' & p & H).
  exact (ex_intro _ line (ex_intro _ (beat_ops k0) (ex_intro _ beat (ex_intro _ d (ex_intro _ d' (ex_intro _ p
    (conj (beat_solvable k0 Hk) (conj eq_refl (conj eq_refl H))))))))).
Qed.
Print Assumptions div_poynting_refuted.

(** ** C71: scalar problems *)
Theorem scalar_derived_refuted : forall u k0 o F, o_vectorial o = false ->
  (forall p, magnetic_field u o k0 F 0%nat p = 0) /\ (o_magnetic o = false -> forall p, magnetizing_field u o k0 F 0%nat p = 0) /\
  (forall p, poynting u o k0 F 0%nat p = 0%R) /\ torque u o k0 F = Err IndexError /\
  ((1 < rndim (o_grid o))%nat -> div_poynting u o k0 F = Err IndexError /\ forall j, force_density u o k0 F j = Err IndexError).
Proof. exact scalar_derived. Qed.
Print Assumptions scalar_derived_refuted.
