(** C166: the power balance, for the fields reported at any iteration and for the solution in lossy magnetic and chiral media. *)
From Coq Require Import Reals Lra Lia List Arith.
Require Import Verif.Base Verif.Cplx Verif.CSum Verif.Field Verif.Fourier_Model Verif.Fourier_Spec Verif.Vec_Model Verif.Vec_Spec Verif.Display_Model Verif.Modes_Model.
Require Import Verif.Solver_Model Verif.Solver_Spec Verif.Choice_Model Verif.Derived_Model Verif.Derived_Spec Verif.Derived_Properties Verif.Magnetic_Spec Verif.Symmetry_Spec Verif.Maxwell_Spec Verif.Maxwell_Proofs.
Require Import Verif.Run_Proofs Verif.Maxwell_Properties Verif.Power_Spec Verif.Power_Proofs.
Import ListNotations.
Local Open Scope R_scope.
Local Open Scope C_scope.

(** Whatever the medium and however far the iteration, the power that the given current delivers to the reported E is what the reported E, D, H, and B absorb. *)
Theorem reported_power : forall u g k0 o F J, physical u -> solvable true g k0 -> o_grid o = scaled k0 g -> o_vectorial o = true ->
  vagree 3 (rshape g) (source_distribution o) (driving u k0 J) ->
  delivered (rshape g) (electric_field k0 F) J =
  absorbed u (rshape g) k0 (electric_field k0 F) (displacement_field u o k0 F) (magnetizing_field u o k0 F) (magnetic_field u o k0 F).
Proof.
  intros u g k0 o F J U G O V S. apply balance; [exact G| |]; [exact (proj1 (reported_B u g k0 o F U G O V))|exact (reported_D_ampere u g k0 o F J U G O V S)].
Qed.
Print Assumptions reported_power.
(** In lossy media this power is that of the constitutive relations, and it is at least omega loss (epsilon_0 |E|^2 + mu_0 |H|^2): it vanishes only without fields. *)
Theorem power_is_absorbed : forall eps u g k0 epsilon xi zeta mu settled thick loss J E, physical u -> magnetic_problem eps g k0 epsilon xi zeta mu settled loss ->
  let s := rshape g in computes 3 s k0 (construct eps g k0 true epsilon xi zeta mu settled thick (driving u k0 J)) E ->
  exists H, maxwell u g k0 epsilon xi zeta mu E H J /\
    delivered s E J = absorbed u s k0 E (constitutive_D u epsilon xi E H) H (constitutive_B u zeta mu E H) /\
    (k0 * c_light u * loss * (epsilon_0 u * vnorm2 3 s E + mu_0 u * vnorm2 3 s H) <= delivered s E J)%R.
Proof.
  intros eps u g k0 epsilon xi zeta mu settled thick loss J E U P s C. destruct (computed _ u _ _ _ _ _ _ _ _ _ _ _ U P C) as (H & M). exists H.
  destruct P as (_ & _ & Hs & Hk & _ & _ & _ & _ & Ha). pose proof (balance u g k0 E _ H _ J Hs (proj1 M) (proj2 M)) as Q.
  refine (conj M (conj Q _)). unfold s. rewrite Q. apply absorbed_least; assumption.
Qed.
Print Assumptions power_is_absorbed.
(** A chiral medium, whatever the constants that the code chooses, and with the solution that the iteration gives. *)
Example power_chiral u thick J : physical u -> (forall (alpha : C) beta, snd alpha <> 0%R -> beta <> 0%R ->
    let o := prepare (scaled 2 chiral5) true true alpha beta (TScalar (fun _ => (2, 1)%R)) chiral_xi chiral_zeta lossy_mu (driving u 2 J) in
    o_grid o = scaled 2 chiral5 /\ o_vectorial o = true /\ vagree 3 (rshape chiral5) (source_distribution o) (driving u 2 J)) /\
  magnetic_problem tiny chiral5 2 (TScalar (fun _ => (2, 1)%R)) chiral_xi chiral_zeta lossy_mu (0, 1)%R (1 / 2) /\
  exists E, computes 3 (rshape chiral5) 2 (construct tiny chiral5 2 true (TScalar (fun _ => (2, 1)%R)) chiral_xi chiral_zeta lossy_mu (0, 1)%R thick (driving u 2 J)) E.
Proof.
  intros U. split; [|split; [apply chiral_problem|exact (computed_exists _ u _ _ _ _ _ _ _ thick J _ U (chiral_problem (fun _ => 2%R)))]].
  intros alpha beta Ha Hb o. split; [reflexivity|]. split; [reflexivity|]. intros c p _ _. exact (source_prepare _ _ _ alpha beta _ _ _ _ _ c p Ha Hb).
Qed.
