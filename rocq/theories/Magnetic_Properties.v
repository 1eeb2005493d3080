(** Convergence in magnetic and chiral media: C104. *)
From Coq Require Import Reals Lra Lia List Arith Bool.
Require Import Verif.Base Verif.Cplx Verif.CSum Verif.Field Verif.Fourier_Model Verif.Fourier_Spec Verif.Fourier_Proofs Verif.Display_Model Verif.Modes_Model.
Require Import Verif.Vec_Model Verif.Vec_Spec Verif.Vec_Proofs Verif.Solver_Model Verif.Solver_Spec Verif.Solver_Proofs.
Require Import Verif.Choice_Model Verif.Derived_Model Verif.Derived_Spec Verif.Magnetic_Spec Verif.Magnetic_Proofs.
Import ListNotations.
Local Open Scope R_scope.
Local Open Scope C_scope.

(** C104: the fixed points of the iteration are the solutions of Maxwell's equations, whatever values the optimisation settled on. *)
Theorem magnetic_constructed_fixed_point : forall eps u g k0 epsilon xi zeta mu nu settled thick J kappa F,
  (0 < eps)%R -> (2 * eps <= 1)%R -> physical u -> solvable true g k0 -> (0 < k0)%R -> inverse_of (rshape g) mu nu ->
  is_magnetic (rshape g) xi zeta mu = true ->
  (20 * sqrt (2 * sqrt eps) * ((1 + highest_frequency g k0) * (1 + highest_frequency g k0)) < snd settled * snd settled)%R ->
  (forall G, vagree 3 (rshape g) (coupling xi zeta nu G) (fun c p => kappa * G c p)) ->
  let o := construct eps g k0 true epsilon xi zeta mu settled thick (driving u k0 J) in
  vagree 3 (rshape g) (update o F) (fun _ _ => 0) <-> maxwell u g k0 epsilon xi zeta mu (electric_field k0 F) (magnetizing_field u o k0 F) J.
Proof.
  intros eps u g k0 epsilon xi zeta mu nu settled thick J kappa F He H1 Hu Hs Hk Hnu Hm Hp Hc.
  exact (mp_fixed eps u g k0 epsilon xi zeta mu nu settled thick J kappa He H1 Hu Hs Hk Hnu Hm Hp Hc F).
Qed.
Print Assumptions magnetic_constructed_fixed_point.

(** C104: in media without gain the corrections never grow. *)
Theorem magnetic_never_grows : forall eps u g k0 epsilon xi zeta mu nu settled thick J kappa F,
  (0 < eps)%R -> (2 * eps <= 1)%R -> physical u -> solvable true g k0 -> (0 < k0)%R -> inverse_of (rshape g) mu nu ->
  is_magnetic (rshape g) xi zeta mu = true ->
  (20 * sqrt (2 * sqrt eps) * ((1 + highest_frequency g k0) * (1 + highest_frequency g k0)) < snd settled * snd settled)%R ->
  (forall G, vagree 3 (rshape g) (coupling xi zeta nu G) (fun c p => kappa * G c p)) ->
  dissipates (rshape g) epsilon xi zeta mu 0 ->
  let o := construct eps g k0 true epsilon xi zeta mu settled thick (driving u k0 J) in
  (vnorm2 3 (rshape g) (update o (next_field o F)) <= vnorm2 3 (rshape g) (update o F))%R.
Proof.
  intros eps u g k0 epsilon xi zeta mu nu settled thick J kappa F He H1 Hu Hs Hk Hnu Hm Hp Hc Hd.
  exact (mp_never_grows eps u g k0 epsilon xi zeta mu nu settled thick J kappa 0 He H1 Hs Hk Hnu Hm Hp Hc Hd (Rle_refl 0) F).
Qed.
Print Assumptions magnetic_never_grows.

(** C104: the corrections vanish if Maxwell's equations have a solution. *)
Theorem magnetic_corrections_vanish : forall eps u g k0 epsilon xi zeta mu nu settled thick J kappa E H,
  (0 < eps)%R -> (2 * eps <= 1)%R -> physical u -> solvable true g k0 -> (0 < k0)%R -> inverse_of (rshape g) mu nu ->
  is_magnetic (rshape g) xi zeta mu = true ->
  (20 * sqrt (2 * sqrt eps) * ((1 + highest_frequency g k0) * (1 + highest_frequency g k0)) < snd settled * snd settled)%R ->
  (forall G, vagree 3 (rshape g) (coupling xi zeta nu G) (fun c p => kappa * G c p)) ->
  dissipates (rshape g) epsilon xi zeta mu 0 -> maxwell u g k0 epsilon xi zeta mu E H J ->
  let o := construct eps g k0 true epsilon xi zeta mu settled thick (driving u k0 J) in
  exists K, forall F i, (INR (i + 1) * vnorm2 3 (rshape g) (update o (Nat.iter i (next_field o) F)) <=
                         K * vnorm2 3 (rshape g) (fun c p => F c p - RtoC (k0 * k0) * E c p)%C)%R.
Proof.
  intros eps u g k0 epsilon xi zeta mu nu settled thick J kappa E H He H1 Hu Hs Hk Hnu Hm Hp Hc Hd HM. eexists. intros F i.
  exact (mp_vanish eps u g k0 epsilon xi zeta mu nu settled thick J kappa 0 He H1 Hu Hs Hk Hnu Hm Hp Hc Hd (Rle_refl 0) E H F i HM).
Qed.
Print Assumptions magnetic_corrections_vanish.

(** C104: with loss everywhere the iteration converges to the only solution of Maxwell's equations. *)
Theorem magnetic_converges : forall eps u g k0 epsilon xi zeta mu nu settled thick J kappa loss F,
  (0 < eps)%R -> (2 * eps <= 1)%R -> physical u -> solvable true g k0 -> (0 < k0)%R -> inverse_of (rshape g) mu nu ->
  is_magnetic (rshape g) xi zeta mu = true ->
  (20 * sqrt (2 * sqrt eps) * ((1 + highest_frequency g k0) * (1 + highest_frequency g k0)) < snd settled * snd settled)%R ->
  (forall G, vagree 3 (rshape g) (coupling xi zeta nu G) (fun c p => kappa * G c p)) ->
  (0 < loss)%R -> dissipates (rshape g) epsilon xi zeta mu loss ->
  let o := construct eps g k0 true epsilon xi zeta mu settled thick (driving u k0 J) in
  exists E H q, (0 <= q < 1)%R /\ maxwell u g k0 epsilon xi zeta mu E H J /\
    (forall E' H', maxwell u g k0 epsilon xi zeta mu E' H' J -> vagree 3 (rshape g) E' E) /\
    forall i, (vnorm2 3 (rshape g) (fun c p => electric_field k0 (Nat.iter i (next_field o) F) c p - E c p)%C <=
               q ^ i * vnorm2 3 (rshape g) (fun c p => electric_field k0 F c p - E c p)%C)%R.
Proof.
  intros eps u g k0 epsilon xi zeta mu nu settled thick J kappa loss F He H1 Hu Hs Hk Hnu Hm Hp Hc Hl Hd.
  exact (mp_converges eps u g k0 epsilon xi zeta mu nu settled thick J kappa loss He H1 Hu Hs Hk Hnu Hm Hp Hc Hd (Rlt_le _ _ Hl) F Hl).
Qed.
Print Assumptions magnetic_converges.

(** A chiral medium with a permeability that differs from point to point. *)
Definition chiral_eps : tensor := TMatrix (fun i j _ => if Nat.eqb i j then (2, 1)%R else match i, j with 0%nat, 1%nat => (0, 1 / 2)%R | 1%nat, 0%nat => (0, - (1 / 2))%R | _, _ => 0 end).
Definition chiral_xi : tensor := TScalar (fun p => (0, INR (hd 0%nat p) / 4)%R).
Definition chiral_zeta : tensor := TScalar (fun p => (0, - (INR (hd 0%nat p) / 4))%R).
Definition chiral_mu : tensor := TScalar (fun p => (1, INR (hd 0%nat p) / 2)%R).
Definition chiral_nu : tensor := TScalar (fun p => / ((1, INR (hd 0%nat p) / 2)%R : C)).
Definition chiral_grid : raster := {| rshape := [4; 3]%nat; rstep := [1; 2]%R |}.
Example magnetic_hypotheses : let eps := (1 / 1000000 * (1 / 1000000) * (1 / 1000000 * (1 / 1000000)))%R in
  (0 < eps)%R /\ (2 * eps <= 1)%R /\ solvable true chiral_grid 2 /\ (0 < 2)%R /\ inverse_of (rshape chiral_grid) chiral_mu chiral_nu /\
  is_magnetic (rshape chiral_grid) chiral_xi chiral_zeta chiral_mu = true /\
  (20 * sqrt (2 * sqrt eps) * ((1 + highest_frequency chiral_grid 2) * (1 + highest_frequency chiral_grid 2)) < 1 * 1)%R /\
  (forall G, vagree 3 (rshape chiral_grid) (coupling chiral_xi chiral_zeta chiral_nu G) (fun c p => 0 * G c p)) /\
  dissipates (rshape chiral_grid) chiral_eps chiral_xi chiral_zeta chiral_mu 1.
Proof.
  intros eps. assert (sqrt eps = 1 / 1000000 * (1 / 1000000))%R as Es by (unfold eps; apply sqrt_square; lra).
  assert (forall p, ((1, INR (hd 0%nat p) / 2)%R : C) <> 0) as Hne by (intros p E; injection E as E _; lra).
  repeat split; try (unfold eps; lra); try (cbn; lia); try (repeat constructor; lia); try (repeat constructor; lra).
  - intros c p _ _. cbn [tapply chiral_mu chiral_nu]. field. apply Hne.
  - intros c p _ _. cbn [tapply chiral_mu chiral_nu]. field. apply Hne.
  - unfold is_magnetic. apply negb_true_iff. rewrite <- andb_assoc. apply andb_false_iff. left.
    unfold allclose, all_over. apply negb_false_iff. cbn [rshape chiral_grid any_over]. apply existsb_exists. exists 1%nat. split; [cbn; tauto|].
    apply existsb_exists. exists 0%nat. split; [cbn; tauto|]. apply negb_true_iff. cbn [elements chiral_xi forallb hd]. apply andb_false_iff. left.
    unfold close. unfold Rleb. destruct (Rle_dec _ _) as [H|H]; [exfalso|reflexivity]. rewrite Cmod_0 in H. change (INR 1) with 1%R in H.
    pose proof (Cmod_Im_le ((0, 1 / 4)%R - 0)) as H0. cbn [snd Cminus Cplus Copp RtoC] in H0. rewrite Rabs_pos_eq in H0 by (cbn; lra). cbn in H0. lra.
  - rewrite Es. unfold highest_frequency. cbn [fold_right chiral_grid rstep].
    assert (0 < PI <= 4)%R as HP by (split; [apply PI_RGT_0|apply PI_4]).
    assert (sqrt (2 * (1 / 1000000 * (1 / 1000000))) <= 2 / 1000000)%R as S1.
    { rewrite <- (sqrt_square (2 / 1000000)) by lra. apply sqrt_le_1_alt. lra. }
    assert (sqrt (PI / 1 * (PI / 1) + (PI / 2 * (PI / 2) + 0)) <= 5)%R as S2.
    { rewrite <- (sqrt_square 5) by lra. apply sqrt_le_1_alt. nra. }
    pose proof (sqrt_pos (2 * (1 / 1000000 * (1 / 1000000)))) as P1. pose proof (sqrt_pos (PI / 1 * (PI / 1) + (PI / 2 * (PI / 2) + 0))) as P2.
    set (a := sqrt (2 * _)) in *. set (b := sqrt (PI / 1 * _ + _)) in *. 
    assert ((1 + b / 2) * (1 + b / 2) <= 16)%R as S3 by nra. nra.
  - intros G c p _ _. unfold coupling. cbn [tapply chiral_xi chiral_zeta chiral_nu].
    transitivity (((0, INR (hd 0%nat p) / 4)%R + (0, - (INR (hd 0%nat p) / 4))%R) * (/ ((1, INR (hd 0%nat p) / 2)%R : C)) * G c p); [ring|].
    replace (((0, INR (hd 0%nat p) / 4)%R + (0, - (INR (hd 0%nat p) / 4))%R)) with (RtoC 0) by (apply C_eq; cbn; ring). ring.
  - intros p E H _ at_p. unfold at_p. cbn [rsum csum tapply chiral_eps chiral_xi chiral_zeta chiral_mu Nat.eqb].
    pose proof (pos_INR (hd 0%nat p)) as Hi. set (k := INR (hd 0%nat p)) in *. rewrite !Cmod_sq.
    destruct (E 0%nat) as [a b], (E 1%nat) as [c d], (E 2%nat) as [x y], (H 0%nat) as [a' b'], (H 1%nat) as [c' d'], (H 2%nat) as [x' y']. cbn.
    assert (0 <= k * (a' * a' + b' * b' + c' * c' + d' * d' + x' * x' + y' * y'))%R by (apply Rmult_le_pos; [exact Hi|nra]). lra.
Qed.
