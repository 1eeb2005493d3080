(** Proofs of the theorems about the whole path from the constructor to the fields of solve. *)
From Coq Require Import Reals Lra Lia List Arith ZArith Bool.
Require Import Verif.Base Verif.Cplx Verif.CSum Verif.Field Verif.Fourier_Model Verif.Fourier_Spec Verif.Vec_Model Verif.Solver_Model Verif.Solver_Spec.
Require Import Verif.Derived_Model Verif.Derived_Spec Verif.Choice_Model Verif.Run_Model Verif.Run_Spec Verif.Run_Glue Verif.Magnetic_Spec Verif.Magnetic_Run Verif.Magnetic_Properties.
Require Export Verif.Construct_Model.
Import ListNotations.
Local Open Scope R_scope.
Local Open Scope C_scope.

Lemma constructed_parts eps g k0 epsilon xi zeta mu settled thick S chi :
  let s := constructed eps g k0 epsilon xi zeta mu settled thick S chi in
  wavenumber s = k0 /\ operators s = Choice_Model.construct eps g k0 true (with_bound epsilon chi) xi zeta mu settled thick S /\
  (forall c p, field s c p = 0) /\ prev_norm s = Inf.
Proof.
  cbn zeta. unfold constructed, Choice_Model.construct. destruct (choose _ _ _ _ _ _ _ _ _ _) as [alpha beta].
  refine (conj eq_refl (conj eq_refl (conj _ eq_refl))). intros c p. cbn. ring.
Qed.

Lemma constructed_ends (W : Type) eps u g k0 epsilon xi zeta mu nu settled thick chi J kappa E H rtol maxiter (w : W) :
  (0 < eps)%R -> (2 * eps <= 1)%R -> physical u -> solvable true g k0 -> (0 < k0)%R -> inverse_of (rshape g) mu nu ->
  is_magnetic (rshape g) xi zeta mu = true ->
  (20 * sqrt (2 * sqrt eps) * ((1 + highest_frequency g k0) * (1 + highest_frequency g k0)) < snd settled * snd settled)%R ->
  (forall G, vagree 3 (rshape g) (coupling xi zeta nu G) (fun c p => kappa * G c p)) ->
  dissipates (rshape g) (with_bound epsilon chi) xi zeta mu 0 -> maxwell u g k0 (with_bound epsilon chi) xi zeta mu E H J -> (0 < rtol)%R ->
  let s := constructed eps g k0 epsilon xi zeta mu settled thick (driving u k0 J) chi in
  exists fuel s', solve_method fuel s NoneGiven rtol maxiter w = Some (Returned w s') /\ operators s' = operators s /\ limit_reached maxiter rtol s'.
Proof.
  intros He H1 Hu Hs Hk Hnu Hm Hp Hc Hd HM Ht s.
  destruct (constructed_parts eps g k0 epsilon xi zeta mu settled thick (driving u k0 J) chi) as (P1 & P2 & P3 & P4). fold s in P1, P2, P3, P4.
  destruct (mr_ends eps u g k0 (with_bound epsilon chi) xi zeta mu nu settled thick J kappa 0 He H1 Hu Hs Hk Hnu Hm Hp Hc Hd (Rle_refl 0) s P1 P2 P3 P4 E H maxiter rtol w HM Ht)
    as (fuel & x & A & B).
  exists fuel, x. split; [exact A|]. apply ended_limit in B. rewrite P2. exact B.
Qed.
Lemma constructed_accurate (W : Type) eps u g k0 epsilon xi zeta mu nu settled thick chi J kappa loss (w : W) :
  (0 < eps)%R -> (2 * eps <= 1)%R -> physical u -> solvable true g k0 -> (0 < k0)%R -> inverse_of (rshape g) mu nu ->
  is_magnetic (rshape g) xi zeta mu = true ->
  (20 * sqrt (2 * sqrt eps) * ((1 + highest_frequency g k0) * (1 + highest_frequency g k0)) < snd settled * snd settled)%R ->
  (forall G, vagree 3 (rshape g) (coupling xi zeta nu G) (fun c p => kappa * G c p)) ->
  (0 < loss)%R -> dissipates (rshape g) (with_bound epsilon chi) xi zeta mu loss ->
  let s := constructed eps g k0 epsilon xi zeta mu settled thick (driving u k0 J) chi in
  exists E H K, maxwell u g k0 (with_bound epsilon chi) xi zeta mu E H J /\
    (forall E' H', maxwell u g k0 (with_bound epsilon chi) xi zeta mu E' H' J -> vagree 3 (rshape g) E' E /\ vagree 3 (rshape g) H' H) /\
    forall rtol, (0 < rtol)%R -> exists fuel s', solve_method fuel s NoneGiven rtol None w = Some (Returned w s') /\
      (magnitude s' (fun c p => get_E s' c p - E c p)%C <= K * rtol * magnitude s' (get_E s'))%R /\
      (magnitude s' (fun c p => magnetizing_field u (operators s') (wavenumber s') (field s') c p - H c p)%C <= K * rtol * magnitude s' (get_E s'))%R.
Proof.
  intros He H1 Hu Hs Hk Hnu Hm Hp Hc Hl Hd s.
  destruct (constructed_parts eps g k0 epsilon xi zeta mu settled thick (driving u k0 J) chi) as (P1 & P2 & P3 & P4). fold s in P1, P2, P3, P4.
  exact (mr_accurate eps u g k0 (with_bound epsilon chi) xi zeta mu nu settled thick J kappa loss He H1 Hu Hs Hk Hnu Hm Hp Hc Hd (Rlt_le _ _ Hl) s P1 P2 P3 P4 w Hl).
Qed.

Definition edge_chi : sfield := fun p => (0, INR (hd 0%nat p))%R.
Lemma dissipates_bound s eps xi zeta mu loss (x : sfield) : (forall p, inside s p -> (0 <= snd (x p))%R) ->
  dissipates s eps xi zeta mu loss -> dissipates s (with_bound eps (Some x)) xi zeta mu loss.
Proof.
  intros Hx H p E Hh Hp at_p. specialize (H p E Hh Hp). cbn zeta in H. eapply Rle_trans; [exact H|]. clear H. unfold at_p.
  assert (forall i, (i < 3)%nat -> tapply (with_bound eps (Some x)) (fun j _ => E j) i p = tapply eps (fun j _ => E j) i p + x p * E i) as A.
  { intros i Hi. unfold with_bound, tsub. destruct eps as [f|m].
    - cbn [tapply]. ring.
    - cbn [tapply csum]. destruct i as [|[|[|i]]]; [| | |lia]; cbn; ring. }
  cbn [csum]. rewrite !A by lia. specialize (Hx p Hp). cbn [snd Cplus Cmult Cconj fst].
  destruct (x p) as [a b]. cbn [fst snd] in *.
  assert (forall i, 0 <= b * (fst (E i) * fst (E i) + snd (E i) * snd (E i)))%R as B by (intros i; apply Rmult_le_pos; [exact Hx|nra]).
  pose proof (B 0%nat). pose proof (B 1%nat). pose proof (B 2%nat). nra.
Qed.
Lemma chiral_bounded : let eps := (1 / 1000000 * (1 / 1000000) * (1 / 1000000 * (1 / 1000000)))%R in
  (0 < eps)%R /\ (2 * eps <= 1)%R /\ solvable true chiral_grid 2 /\ (0 < 2)%R /\ inverse_of (rshape chiral_grid) chiral_mu chiral_nu /\
  is_magnetic (rshape chiral_grid) chiral_xi chiral_zeta chiral_mu = true /\
  (20 * sqrt (2 * sqrt eps) * ((1 + highest_frequency chiral_grid 2) * (1 + highest_frequency chiral_grid 2)) < 1 * 1)%R /\
  (forall G, vagree 3 (rshape chiral_grid) (coupling chiral_xi chiral_zeta chiral_nu G) (fun c p => 0 * G c p)) /\
  dissipates (rshape chiral_grid) (with_bound chiral_eps (Some edge_chi)) chiral_xi chiral_zeta chiral_mu 1.
Proof.
  intros eps. destruct magnetic_hypotheses as (H1 & H2 & H3 & H4 & H5 & H6 & H7 & H8 & H9).
  refine (conj H1 (conj H2 (conj H3 (conj H4 (conj H5 (conj H6 (conj H7 (conj H8 _)))))))). apply dissipates_bound; [|exact H9].
  intros p _. apply pos_INR.
Qed.
