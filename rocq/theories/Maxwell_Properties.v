(** Magnetic and chiral media: reciprocity (C134), small errors (C135), and translation (C136). *)
From Coq Require Import Reals Lra Lia List Arith Bool.
Require Import Verif.Base Verif.Cplx Verif.CSum Verif.Field Verif.Fourier_Model Verif.Fourier_Spec Verif.Fourier_Proofs Verif.Display_Model Verif.Modes_Model.
Require Import Verif.Vec_Model Verif.Vec_Spec Verif.Vec_Proofs Verif.Solver_Model Verif.Solver_Spec Verif.Solver_Proofs.
Require Import Verif.Choice_Model Verif.Choice_Proofs Verif.Derived_Model Verif.Derived_Spec Verif.Magnetic_Spec Verif.Symmetry_Spec Verif.Maxwell_Spec Verif.Maxwell_Proofs Verif.Maxwell_Shift.
Import ListNotations.
Local Open Scope R_scope.
Local Open Scope C_scope.

(** A chiral medium with magnetic loss that differs from point to point, and a permittivity e. *)
Definition chiral5 : raster := {| rshape := [5; 3]%nat; rstep := [1; 2]%R |}.
Definition twist (p : list nat) : R := (INR (hd 0%nat p) / 4)%R.
Definition chiral_xi : tensor := TScalar (fun p => (0, twist p)%R).
Definition chiral_zeta : tensor := TScalar (fun p => (0, - twist p)%R).
Definition lossy_mu : tensor := TScalar (fun p => (1, (INR (hd 0%nat p) + 1) / 2)%R).
Definition tiny : R := (1 / 1000000 * (1 / 1000000) * (1 / 1000000 * (1 / 1000000)))%R.
Lemma fine_settled g : (highest_frequency g 2 <= 3)%R -> (0 <= highest_frequency g 2)%R -> (20 * sqrt (2 * sqrt tiny) * ((1 + highest_frequency g 2) * (1 + highest_frequency g 2)) < 1 * 1)%R.
Proof.
  intros H H0. assert (sqrt tiny = 1 / 1000000 * (1 / 1000000))%R as Es by (unfold tiny; apply sqrt_square; lra). rewrite Es.
  assert (sqrt (2 * (1 / 1000000 * (1 / 1000000))) <= 2 / 1000000)%R as S1. { rewrite <- (sqrt_square (2 / 1000000)) by lra. apply sqrt_le_1_alt. lra. }
  pose proof (sqrt_pos (2 * (1 / 1000000 * (1 / 1000000)))) as P1. set (a := sqrt (2 * _)) in *. set (b := highest_frequency g 2) in *. assert ((1 + b) * (1 + b) <= 16)%R as S3 by nra. nra.
Qed.
Lemma scalar_absorbs s (e x m : list nat -> R) (er mr : list nat -> R) loss : (forall p, inside s p -> loss <= e p)%R -> (forall p, inside s p -> loss <= m p)%R ->
  absorbs_both s (TScalar (fun p => (er p, e p))) (TScalar (fun p => (0, x p)%R)) (TScalar (fun p => (0, - x p)%R)) (TScalar (fun p => (mr p, m p))) loss.
Proof.
  intros He Hm p E H Hp. specialize (He p Hp). specialize (Hm p Hp). unfold length2, at_point. cbn [rsum csum tapply]. rewrite !Cmod_sq.
  destruct (E 0%nat) as [a b], (E 1%nat) as [c d], (E 2%nat) as [y z], (H 0%nat) as [a' b'], (H 1%nat) as [c' d'], (H 2%nat) as [y' z']. cbn.
  assert (0 <= (e p - loss) * (a * a + b * b + c * c + d * d + y * y + z * z))%R by (apply Rmult_le_pos; [lra|nra]).
  assert (0 <= (m p - loss) * (a' * a' + b' * b' + c' * c' + d' * d' + y' * y' + z' * z'))%R by (apply Rmult_le_pos; [lra|nra]). nra.
Qed.
Lemma scalar_problem g (e x m : list nat -> R) (er : list nat -> R) loss p0 : proper g -> (rndim g <= 3)%nat -> (highest_frequency g 2 <= 3)%R -> (0 <= highest_frequency g 2)%R -> (0 < loss)%R ->
  (forall p, inside (rshape g) p -> loss <= e p)%R -> (forall p, inside (rshape g) p -> loss <= m p)%R -> inside (rshape g) p0 -> (1 / 4 <= Rabs (x p0))%R ->
  magnetic_problem tiny g 2 (TScalar (fun p => (er p, e p))) (TScalar (fun p => (0, x p)%R)) (TScalar (fun p => (0, - x p)%R)) (TScalar (fun p => (1, m p)%R)) (0, 1)%R loss.
Proof.
  intros Hg Hn Hf Hf0 Hl He Hm Hp0 Hx. assert (forall p, ((1, m p)%R : C) <> 0) as Hne by (intros p E; injection E as E _; lra).
  split; [unfold tiny; lra|]. split; [unfold tiny; lra|]. split; [split; [exact Hg|split; [lra|intros _; exact Hn]]|]. split; [lra|]. split; [|split; [|split; [|split; [exact Hl|]]]].
  - exists (TScalar (fun p => / ((1, m p)%R : C))). split.
    + intros F. split; intros c p _ _; cbn [tapply]; field; apply Hne.
    + exists 0. intros G c p _ _. unfold coupling. cbn [tapply]. transitivity (((0, x p)%R + (0, - x p)%R) * (/ ((1, m p)%R : C)) * G c p); [ring|].
      replace ((0, x p)%R + (0, - x p)%R) with (RtoC 0) by (apply C_eq; cbn; ring). ring.
  - unfold is_magnetic. apply negb_true_iff. rewrite <- andb_assoc. apply andb_false_iff. left. unfold allclose, all_over. apply negb_false_iff. apply any_over_spec. exists p0. split; [exact Hp0|]. apply negb_true_iff. cbn [elements forallb].
    apply andb_false_iff. left. unfold close, Rleb. destruct (Rle_dec _ _) as [H|H]; [exfalso|reflexivity]. rewrite Cmod_0 in H. pose proof (Cmod_Im_le ((0, x p0)%R - 0)) as H0. cbn [snd Cminus Cplus Copp RtoC] in H0. replace (x p0 + - 0)%R with (x p0) in H0 by ring. lra.
  - cbn [snd]. apply fine_settled; assumption.
  - apply scalar_absorbs; assumption.
Qed.
Lemma chiral5_frequency : (0 <= highest_frequency chiral5 2 <= 3)%R.
Proof.
  unfold highest_frequency. cbn [fold_right chiral5 rstep]. assert (0 < PI <= 4)%R as HP by (split; [apply PI_RGT_0|apply PI_4]).
  assert (sqrt (PI / 1 * (PI / 1) + (PI / 2 * (PI / 2) + 0)) <= 5)%R as S2. { rewrite <- (sqrt_square 5) by lra. apply sqrt_le_1_alt. nra. } pose proof (sqrt_pos (PI / 1 * (PI / 1) + (PI / 2 * (PI / 2) + 0))) as P2. lra.
Qed.
Lemma chiral_problem (er : list nat -> R) : magnetic_problem tiny chiral5 2 (TScalar (fun p => (er p, 1)%R)) chiral_xi chiral_zeta lossy_mu (0, 1)%R (1 / 2).
Proof.
  destruct chiral5_frequency as [F0 F1]. apply (scalar_problem chiral5 (fun _ => 1%R) twist (fun p => ((INR (hd 0%nat p) + 1) / 2)%R) er (1 / 2) [1; 0]%nat); try assumption; try lra.
  - repeat split; cbn; repeat constructor; lra || lia.
  - cbn. lia.
  - intros p _. lra.
  - intros p _. pose proof (pos_INR (hd 0%nat p)). lra.
  - repeat constructor; lia.
  - unfold twist. cbn. rewrite Rabs_pos_eq; lra.
Qed.

(** C134: exchanging source and detector in a magnetic or chiral medium.  Only on grids of which all sizes are odd. *)
Theorem magnetic_reciprocity_partial : forall eps u g k0 epsilon xi zeta mu settled thick loss J1 J2 E1 E2, physical u -> magnetic_problem eps g k0 epsilon xi zeta mu settled loss ->
  odd_sizes (rshape g) -> reciprocal (rshape g) epsilon xi zeta mu -> let o J := construct eps g k0 true epsilon xi zeta mu settled thick (driving u k0 J) in
  computes 3 (rshape g) k0 (o J1) E1 -> computes 3 (rshape g) k0 (o J2) E2 -> product 3 (rshape g) E1 J2 = product 3 (rshape g) E2 J1.
Proof.
  intros eps u g k0 epsilon xi zeta mu settled thick loss J1 J2 E1 E2 U P O Q o C1 C2. destruct (computed _ u _ _ _ _ _ _ _ _ _ _ _ U P C1) as (H1 & M1). destruct (computed _ u _ _ _ _ _ _ _ _ _ _ _ U P C2) as (H2 & M2).
  exact (lorentz u g k0 epsilon xi zeta mu U (proj1 (proj2 (proj2 P))) O Q E1 H1 J1 E2 H2 J2 M1 M2).
Qed.
Print Assumptions magnetic_reciprocity_partial.
Example reciprocal_chiral : magnetic_problem tiny chiral5 2 (TScalar (fun _ => (2, 1)%R)) chiral_xi chiral_zeta lossy_mu (0, 1)%R (1 / 2) /\ odd_sizes (rshape chiral5) /\
  reciprocal (rshape chiral5) (TScalar (fun _ => (2, 1)%R)) chiral_xi chiral_zeta lossy_mu /\
  forall u thick J, physical u -> exists E, computes 3 (rshape chiral5) 2 (construct tiny chiral5 2 true (TScalar (fun _ => (2, 1)%R)) chiral_xi chiral_zeta lossy_mu (0, 1)%R thick (driving u 2 J)) E.
Proof.
  split; [apply chiral_problem|]. split; [repeat constructor|]. split.
  - intros p u v _. unfold dot, at_point. cbn [csum tapply chiral_xi chiral_zeta lossy_mu]. split; [ring|]. split; [ring|].
    replace ((0, - twist p)%R : C) with (- ((0, twist p)%R : C)) by (apply C_eq; cbn; ring). ring.
  - intros u thick J U. exact (computed_exists _ u _ _ _ _ _ _ _ thick J _ U (chiral_problem (fun _ => 2%R))).
Qed.
(** C134: with two points, it fails even in a uniform chiral medium, which is reciprocal. *)
Theorem magnetic_reciprocity_refuted : forall eps u k0 x settled thick loss, let g := {| rshape := [2]%nat; rstep := [1]%R |} in let epsilon := tuniform (1, 1)%R in let xi := tuniform (0, x)%R in let zeta := tuniform (0, - x)%R in let mu := tuniform (1, 1)%R in
  physical u -> magnetic_problem eps g k0 epsilon xi zeta mu settled loss -> reciprocal (rshape g) epsilon xi zeta mu /\
  let o J := construct eps g k0 true epsilon xi zeta mu settled thick (driving u k0 J) in
  exists J1 J2 E1 E2, computes 3 (rshape g) k0 (o J1) E1 /\ computes 3 (rshape g) k0 (o J2) E2 /\ product 3 (rshape g) E1 J2 <> product 3 (rshape g) E2 J1.
Proof.
  intros eps u k0 x settled thick loss g epsilon xi zeta mu U P. split.
  - intros p a b _. unfold dot, at_point, epsilon, xi, zeta, mu, tuniform. cbn [csum tapply]. split; [ring|]. split; [ring|]. replace ((0, - x)%R : C) with (- ((0, x)%R : C)) by (apply C_eq; cbn; ring). ring.
  - intros o. assert (Hx : x <> 0%R).
    { intros ->. destruct P as (_ & _ & _ & _ & _ & M & _). assert (xi = tuniform 0) as X by reflexivity. assert (zeta = tuniform 0) as Y by (unfold zeta; rewrite Ropp_0; reflexivity). rewrite X, Y in M. change (is_magnetic (rshape g) tzero tzero (tuniform (1, 1)%R) = true) in M. rewrite Choice_Construct.not_magnetic in M. discriminate M. }
    assert (K : k0 <> 0%R) by apply P. assert (Mu : ((1, 1)%R : C) <> 0) by (intros X; apply (f_equal fst) in X; cbn in X; lra).
    pose proof (wave_solves u k0 (1, 1)%R (0, x)%R (0, - x)%R (1, 1)%R U K Mu) as W.
    exists (wave (drive u k0 (1, 1)%R (0, x)%R (0, - x)%R (1, 1)%R (unit 1))), (wave (drive u k0 (1, 1)%R (0, x)%R (0, - x)%R (1, 1)%R (unit 2))), (wave (unit 1)), (wave (unit 2)).
    split; [exact (solution_computed _ u g _ _ _ _ _ _ _ _ _ _ _ U P (W (unit 1)))|]. split; [exact (solution_computed _ u g _ _ _ _ _ _ _ _ _ _ _ U P (W (unit 2)))|].
    apply not_reciprocal; try assumption. intros X. apply (f_equal snd) in X. cbn in X. lra.
Qed.
Print Assumptions magnetic_reciprocity_refuted.
Example chiral_pair : magnetic_problem tiny {| rshape := [2]%nat; rstep := [1]%R |} 2 (tuniform (1, 1)%R) (tuniform (0, 1)%R) (tuniform (0, - (1))%R) (tuniform (1, 1)%R) (0, 1)%R 1.
Proof.
  assert (F : (0 <= highest_frequency {| rshape := [2]%nat; rstep := [1]%R |} 2 <= 3)%R).
  { unfold highest_frequency. cbn [fold_right rstep]. assert (0 < PI <= 4)%R as HP by (split; [apply PI_RGT_0|apply PI_4]). assert (sqrt (PI / 1 * (PI / 1) + 0) <= 4)%R as S2 by (rewrite <- (sqrt_square 4) by lra; apply sqrt_le_1_alt; nra). pose proof (sqrt_pos (PI / 1 * (PI / 1) + 0)) as P2. lra. }
  apply (scalar_problem {| rshape := [2]%nat; rstep := [1]%R |} (fun _ => 1%R) (fun _ => 1%R) (fun _ => 1%R) (fun _ => 1%R) 1 [0]%nat); try (apply F); try lra; try (intros; lra); try (rewrite Rabs_R1; lra).
  - repeat split; cbn; repeat constructor; lra || lia.
  - cbn. lia.
  - repeat constructor; lia.
Qed.

(** C135: in magnetic and chiral media, E and H are bounded by the current density, *)
Theorem source_bounds_fields : forall eps u g k0 epsilon xi zeta mu settled thick loss J E, physical u -> magnetic_problem eps g k0 epsilon xi zeta mu settled loss ->
  computes 3 (rshape g) k0 (construct eps g k0 true epsilon xi zeta mu settled thick (driving u k0 J)) E ->
  exists H, maxwell u g k0 epsilon xi zeta mu E H J /\ (strength u (rshape g) E H <= impedance u / (k0 * loss) * sqrt (vnorm2 3 (rshape g) J))%R.
Proof.
  intros eps u g k0 epsilon xi zeta mu settled thick loss J E U P C. destruct (computed _ u _ _ _ _ _ _ _ _ _ _ _ U P C) as (H & M). exists H. split; [exact M|].
  destruct P as (_ & _ & Hs & Hk & _ & _ & _ & Hl & Ha). exact (source_bound u g k0 U Hs Hk epsilon xi zeta mu loss E H J Hl Ha M).
Qed.
Print Assumptions source_bounds_fields.
(** and small differences of the four material tensors make small differences of E and H. *)
Theorem small_magnetic_perturbation : forall eps u g k0 e1 xi1 zeta1 mu1 e2 xi2 zeta2 mu2 settled settled' thick thick' loss loss2 d J E1 E2, physical u ->
  magnetic_problem eps g k0 e1 xi1 zeta1 mu1 settled loss -> magnetic_problem eps g k0 e2 xi2 zeta2 mu2 settled' loss2 -> (0 <= d)%R -> responses_near (rshape g) e1 xi1 zeta1 mu1 e2 xi2 zeta2 mu2 d ->
  computes 3 (rshape g) k0 (construct eps g k0 true e1 xi1 zeta1 mu1 settled thick (driving u k0 J)) E1 ->
  computes 3 (rshape g) k0 (construct eps g k0 true e2 xi2 zeta2 mu2 settled' thick' (driving u k0 J)) E2 ->
  exists H1 H2, maxwell u g k0 e1 xi1 zeta1 mu1 E1 H1 J /\ maxwell u g k0 e2 xi2 zeta2 mu2 E2 H2 J /\
    (strength u (rshape g) (fun c p => E1 c p - E2 c p)%C (fun c p => H1 c p - H2 c p)%C <= d / loss * strength u (rshape g) E2 H2)%R.
Proof.
  intros eps u g k0 e1 xi1 zeta1 mu1 e2 xi2 zeta2 mu2 settled settled' thick thick' loss loss2 d J E1 E2 U P1 P2 Hd N C1 C2.
  destruct (computed _ u _ _ _ _ _ _ _ _ _ _ _ U P1 C1) as (H1 & M1). destruct (computed _ u _ _ _ _ _ _ _ _ _ _ _ U P2 C2) as (H2 & M2). exists H1, H2. split; [exact M1|]. split; [exact M2|].
  destruct P1 as (_ & _ & Hs & Hk & _ & _ & _ & Hl & Ha). exact (perturbed u g k0 U Hs Hk e1 xi1 zeta1 mu1 e2 xi2 zeta2 mu2 loss d E1 H1 E2 H2 J Hl Hd Ha N M1 M2).
Qed.
Print Assumptions small_magnetic_perturbation.
Example chiral_near : magnetic_problem tiny chiral5 2 (TScalar (fun _ => (2, 1)%R)) chiral_xi chiral_zeta lossy_mu (0, 1)%R (1 / 2) /\ magnetic_problem tiny chiral5 2 (TScalar (fun _ => (3, 1)%R)) chiral_xi chiral_zeta lossy_mu (0, 1)%R (1 / 2) /\
  responses_near (rshape chiral5) (TScalar (fun _ => (2, 1)%R)) chiral_xi chiral_zeta lossy_mu (TScalar (fun _ => (3, 1)%R)) chiral_xi chiral_zeta lossy_mu 1.
Proof.
  split; [apply chiral_problem|]. split; [apply chiral_problem|]. intros p E H _. unfold length2, at_point. cbn [rsum tapply chiral_xi chiral_zeta lossy_mu]. rewrite !Cmod_sq.
  destruct (E 0%nat) as [a b], (E 1%nat) as [c d], (E 2%nat) as [y z], (H 0%nat) as [a' b'], (H 1%nat) as [c' d'], (H 2%nat) as [y' z']. cbn. set (t := twist p). set (m := ((INR (hd 0%nat p) + 1) / 2)%R).
  ring_simplify. nra.
Qed.

(** C136: translation of a magnetic or chiral medium, the source, and the initial field over the periodic grid translates the field of every iteration. *)
Theorem magnetic_translation : forall eps g k0 epsilon xi zeta mu settled kappa S F q i, (rndim g <= 3)%nat -> let s := rshape g in inside s q -> let tr := translated_tensor s q in
  is_magnetic s xi zeta mu = true -> is_magnetic s (tr xi) (tr zeta) (tr mu) = true ->
  let o := construct eps g k0 true epsilon xi zeta mu settled kappa S in
  let o' := construct eps g k0 true (tr epsilon) (tr xi) (tr zeta) (tr mu) settled kappa (translated s q S) in
  vagree 3 s (Nat.iter i (next_field o') (translated s q F)) (translated s q (Nat.iter i (next_field o) F)).
Proof. exact magnetic_translation_proof. Qed.
Print Assumptions magnetic_translation.
Example chiral_translated : (rndim chiral5 <= 3)%nat /\ inside (rshape chiral5) [2; 1]%nat /\ is_magnetic (rshape chiral5) chiral_xi chiral_zeta lossy_mu = true /\
  let tr := translated_tensor (rshape chiral5) [2; 1]%nat in is_magnetic (rshape chiral5) (tr chiral_xi) (tr chiral_zeta) (tr lossy_mu) = true /\ tr lossy_mu <> lossy_mu.
Proof.
  split; [cbn; lia|]. split; [repeat constructor; lia|]. destruct (chiral_problem (fun _ => 2%R)) as (_ & _ & _ & _ & _ & M & _). split; [exact M|]. split.
  - unfold is_magnetic. apply negb_true_iff. rewrite <- andb_assoc. apply andb_false_iff. left. unfold allclose, all_over. apply negb_false_iff. apply any_over_spec. exists [3; 1]%nat. split; [repeat constructor; cbn; lia|]. apply negb_true_iff. cbn.
    apply andb_false_iff. left. unfold close, Rleb. destruct (Rle_dec _ _) as [H|H]; [exfalso|reflexivity]. rewrite Cmod_0 in H. pose proof (Cmod_Im_le ((0, twist [1; 0]%nat)%R - 0)) as H0. unfold twist in *. cbn [snd Cminus Cplus Copp RtoC hd INR] in *. rewrite Rabs_pos_eq in H0 by (cbn; lra). cbn in H0. lra.
  - intros X. assert (Y : forall a b, TScalar a = TScalar b -> a = b) by (intros a b Z; injection Z; auto). apply Y in X. apply (f_equal (fun f => snd (f [0; 0]%nat))) in X. cbn in X. lra.
Qed.
