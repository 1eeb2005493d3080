(** Reading and assigning the permittivity of magnetic and chiral media (C19). *)
From Coq Require Import Reals Lra Lia List Arith ZArith Bool.
Require Import Verif.Base Verif.Cplx Verif.CSum Verif.Field Verif.Fourier_Model Verif.Fourier_Spec Verif.Vec_Model Verif.Vec_Spec Verif.Solver_Model Verif.Solver_Spec Verif.Solver_Proofs.
Require Import Verif.Derived_Model Verif.Derived_Spec Verif.Run_Model Verif.Run_Spec Verif.Run_Magnetic.
Import ListNotations.
Local Open Scope R_scope.
Local Open Scope C_scope.

(** C19: what reading epsilon gives in a magnetic problem: the permittivity of the user, without that of the bound, minus alpha beta. *)
Theorem magnetic_epsilon_read_partial : forall u g k0 (alpha : C) beta eps xi zeta mu nu S chi E l,
  solvable true g k0 -> snd alpha <> 0%R -> beta <> 0%R -> inverse_of (rshape g) mu nu -> same_kind eps xi zeta mu -> Forall keeps_material l ->
  let s := history u l (construct g true true k0 alpha beta eps xi zeta mu S chi E) in
  exists alpha' : C, snd alpha' <> 0%R /\
    forall (F : vfield) c p, (c < 3)%nat -> inside (rshape g) p -> tapply (get_epsilon s) F c p = tapply eps F c p - alpha' * RtoC beta * F c p.
Proof. exact rm_read. Qed.
Print Assumptions magnetic_epsilon_read_partial.
(** So that it is never what the user gave. *)
Theorem magnetic_epsilon_read_refuted : forall u g k0 (alpha : C) beta eps xi zeta mu nu S chi E l,
  solvable true g k0 -> snd alpha <> 0%R -> beta <> 0%R -> inverse_of (rshape g) mu nu -> same_kind eps xi zeta mu -> Forall keeps_material l ->
  let s := history u l (construct g true true k0 alpha beta eps xi zeta mu S chi E) in
  forall (F : vfield) c p, (c < 3)%nat -> inside (rshape g) p -> F c p <> 0 -> tapply (get_epsilon s) F c p <> tapply eps F c p.
Proof. exact rm_read_wrong. Qed.
Print Assumptions magnetic_epsilon_read_refuted.
(** When the permittivity is a matrix, and the other tensors are numbers, also the off-diagonal elements are wrong. *)
Theorem epsilon_off_diagonal_refuted : forall u g k0 (alpha : C) beta (e : nat -> nat -> sfield) (x z m : sfield) S E l,
  solvable true g k0 -> snd alpha <> 0%R -> beta <> 0%R -> (forall p, inside (rshape g) p -> m p <> 0) -> Forall keeps_material l ->
  let s := history u l (construct g true true k0 alpha beta (TMatrix e) (TScalar x) (TScalar z) (TScalar m) S None E) in
  exists r, get_epsilon s = TMatrix r /\ forall i j p, i <> j -> inside (rshape g) p -> r i j p = e i j p + x p * z p / m p.
Proof. exact rm_read_spread. Qed.
Print Assumptions epsilon_off_diagonal_refuted.
(** Assigning eps' poses the problem that the constructor would, if there is no bound; otherwise, the susceptibility of the bound is subtracted. *)
Theorem magnetic_epsilon_assign_partial : forall u g k0 (alpha : C) beta eps eps' xi zeta mu nu S chi E l (alpha' : C) beta' F i,
  solvable true g k0 -> snd alpha <> 0%R -> snd alpha' <> 0%R -> beta <> 0%R -> beta' <> 0%R -> inverse_of (rshape g) mu nu -> Forall keeps_material l ->
  let s := history u l (construct g true true k0 alpha beta eps xi zeta mu S chi E) in
  let assigned := match chi with None => eps' | Some x => tsub eps' (TScalar x) end in
  vagree 3 (rshape g) (Nat.iter i (next_field (operators (set_epsilon s eps' true alpha' beta'))) F)
    (Nat.iter i (next_field (operators (construct g true true k0 alpha' beta' assigned xi zeta mu (last_source u k0 l S) None E))) F).
Proof. exact rm_assign. Qed.
Print Assumptions magnetic_epsilon_assign_partial.
(** So that the value read after assigning eps' contains minus twice the susceptibility of the bound. *)
Theorem magnetic_epsilon_assign_refuted : forall u g k0 (alpha : C) beta eps eps' xi zeta mu nu S chi E l (alpha' : C) beta',
  solvable true g k0 -> snd alpha <> 0%R -> snd alpha' <> 0%R -> beta <> 0%R -> beta' <> 0%R -> inverse_of (rshape g) mu nu -> same_kind eps' xi zeta mu -> Forall keeps_material l ->
  let s := history u l (construct g true true k0 alpha beta eps xi zeta mu S chi E) in
  forall (F : vfield) c p, (c < 3)%nat -> inside (rshape g) p ->
  tapply (get_epsilon (set_epsilon s eps' true alpha' beta')) F c p =
    tapply eps' F c p - alpha' * RtoC beta' * F c p - RtoC 2 * (match chi with None => 0 | Some x => x p end) * F c p.
Proof. exact rm_assign_read. Qed.
Print Assumptions magnetic_epsilon_assign_refuted.

(** A chiral magnetic medium that varies from point to point. *)
Example epsilon_hypotheses : let g := {| rshape := [3; 4]%nat; rstep := [1; 2]%R |} in let mu := TScalar (fun p => (1 + INR (hd 0%nat p), 1)%R) in
  solvable true g 2 /\ inverse_of (rshape g) mu (TScalar (fun p => 1 / (1 + INR (hd 0%nat p), 1)%R)) /\
  same_kind (TScalar (fun p => (2 + INR (hd 0%nat p), 1)%R)) (TScalar (fun _ => Ci)) (TMatrix (fun i j p => eye i j * Ci)) mu /\
  Forall keeps_material [ONext true; OReadResidue; OSetE (fun _ _ => 1); ONext false].
Proof.
  intros g mu. refine (conj _ (conj _ (conj I _))).
  - unfold solvable, g. cbn. refine (conj _ (conj _ _)); [|lra|intros _; lia]. unfold proper. cbn. repeat split; try lia; repeat constructor; lia || lra.
  - intros F. split; intros c p _ _; unfold mu; cbn [tapply]; field; apply alpha_neq; cbn; lra.
  - repeat constructor.
Qed.
