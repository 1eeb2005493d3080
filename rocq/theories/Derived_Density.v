(** Proofs about the energy flow, energy density, stress, force, the power balance, and scalar problems. *)
From Coq Require Import Reals Lra Lia List Arith Bool.
Require Import Verif.Base Verif.Cplx Verif.CSum Verif.Field Verif.Fourier_Model Verif.Fourier_Spec Verif.Fourier_Proofs.
Require Import Verif.Vec_Model Verif.Vec_Spec Verif.Vec_Proofs Verif.Solver_Model Verif.Solver_Spec Verif.Solver_Proofs.
Require Import Verif.Solver_Convergence Verif.Solver_Limit Verif.Solver_Choice.
Require Import Verif.Derived_Model Verif.Derived_Spec Verif.Derived_Tensor Verif.Solver_Maxwell Verif.Derived_Proofs.
Import ListNotations.
Local Open Scope R_scope.
Local Open Scope C_scope.

Lemma fst_csum n f : fst (csum n f) = rsum n (fun i => fst (f i)).
Proof. induction n as [|n IH]; cbn; [reflexivity|]. rewrite <- IH. reflexivity. Qed.
Lemma fst_sum_over s f : fst (sum_over s f) = rsum_over s (fun p => fst (f p)).
Proof.
  revert f. induction s as [|n s IH]; intros f; cbn; [reflexivity|]. rewrite fst_csum. apply rsum_ext. intros i _. apply IH.
Qed.

(** The sum of an inverse transform over the grid is the constant term. *)
Lemma phase_zero s p : phase s p (repeat 0%nat (length s)) = 0%R.
Proof.
  revert p. induction s as [|n s IH]; intros p; [reflexivity|]. destruct p as [|a p]; [reflexivity|]. cbn [length repeat phase].
  rewrite IH. cbn [INR]. unfold Rdiv. ring.
Qed.
Lemma sum_ift s f : nonempty s -> sum_over s (ift s f) = f (repeat 0%nat (length s)).
Proof.
  intros Hs. assert (inside s (repeat 0%nat (length s))) as H0.
  { induction Hs; cbn; constructor; assumption. }
  rewrite <- (ft_ift s f _ H0). unfold ft. apply sum_over_ext. intros p Hp. rewrite phase_zero, Ropp_0, cis_0. ring.
Qed.
Lemma div_sum_zero g n G d : proper g -> (rndim g <= n)%nat -> div g n G = Ok d -> sum_over (rshape g) d = 0.
Proof.
  intros Hg Hn. unfold div, div_ft. destruct (Nat.ltb_spec n (rndim g)); [lia|]. cbn. intros H0. injection H0 as <-.
  rewrite sum_ift by apply Hg. rewrite (csum_ext _ _ (fun _ => 0)); [apply csum_zero|]. intros i Hi.
  change (repeat 0%nat (length (rshape g))) with (origin g). rewrite kvec_origin; [ring|assumption|apply origin_inside; assumption|assumption|apply is_origin_origin].
Qed.
Lemma div_scaled k0 g n G : k0 <> 0%R -> proper g -> (rndim g <= n)%nat ->
  exists d d', div (scaled k0 g) n G = Ok d /\ div g n G = Ok d' /\ forall p, d' p = RtoC k0 * d p.
Proof.
  intros Hk Hg Hn. unfold div, div_ft. rewrite scaled_ndim. destruct (Nat.ltb_spec n (rndim g)); [lia|]. cbn [bind].
  do 2 eexists. split; [reflexivity|]. split; [reflexivity|]. intros p. cbn [rshape scaled]. rewrite <- ift_scal. apply ift_ext. intros k Hk'.
  rewrite <- csum_scal. apply csum_ext. intros i Hi. rewrite kvec_scaled by assumption. rewrite RtoC_div by assumption. field. auto with cneq.
Qed.

Section Densities.
  Variables (u : si) (g : raster) (k0 : R) (o : ops) (F : vfield).
  Hypothesis Hs : solvable true g k0.
  Hypothesis Hg : o_grid o = scaled k0 g.
  Hypothesis Hv : o_vectorial o = true.
  Let s := rshape g.
  Let E := electric_field k0 F.
  Let H := magnetizing_field u o k0 F.

  Lemma ds_length : vector_length o = 3%nat.
  Proof. unfold vector_length. rewrite Hv. reflexivity. Qed.
  Lemma ds_n : (rndim g <= 3)%nat.
  Proof. destruct Hs as (_ & _ & Hn). auto. Qed.

  Lemma ds_poynting c p : (c < 3)%nat -> poynting u o k0 F c p = (/ 2 * fst (cross3 (fun i => E i p) (fun i => Cconj (H i p)) c))%R.
  Proof. intros Hc. unfold poynting. rewrite ds_length, cross_cross3 by assumption. reflexivity. Qed.
  Lemma ds_poynting_orthogonal p : (forall c, (c < 3)%nat -> snd (E c p) = 0 /\ snd (H c p) = 0)%R ->
    (rsum 3 (fun c => fst (E c p) * poynting u o k0 F c p) = 0 /\ rsum 3 (fun c => fst (H c p) * poynting u o k0 F c p) = 0)%R.
  Proof.
    intros Hr. destruct (Hr 0%nat ltac:(lia)) as (E0 & H0), (Hr 1%nat ltac:(lia)) as (E1 & H1), (Hr 2%nat ltac:(lia)) as (E2 & H2).
    cbn [rsum]. rewrite !ds_poynting by lia. revert E0 E1 E2 H0 H1 H2. unfold cross3.
    generalize (E 0%nat p) (E 1%nat p) (E 2%nat p) (H 0%nat p) (H 1%nat p) (H 2%nat p).
    intros [a a'] [b b'] [c c'] [d d'] [e e'] [f f']. cbn. intros; subst. split; ring.
  Qed.

  Lemma ds_stress i j p : stress_tensor u o k0 F i j p =
    (/ 2 * (epsilon_0 u * fst (Cmult (E i p) (Cconj (E j p))) + mu_0 u * fst (Cmult (H i p) (Cconj (H j p)))
            - (if Nat.eqb i j then / 2 * (epsilon_0 u * rsum 3 (fun c => Cmod (E c p) * Cmod (E c p)) + mu_0 u * rsum 3 (fun c => Cmod (H c p) * Cmod (H c p))) else 0)))%R.
  Proof.
    unfold stress_tensor, outer, eye. rewrite ds_length. fold E H.
    generalize (rsum 3 (fun c => (Cmod (E c p) * Cmod (E c p))%R)) (rsum 3 (fun c => (Cmod (H c p) * Cmod (H c p))%R)). intros x y.
    destruct (E i p) as [a b], (E j p) as [c d], (H i p) as [e f], (H j p) as [h k]. destruct (Nat.eqb i j); cbn; ring.
  Qed.
  Lemma ds_stress_sym i j p : stress_tensor u o k0 F i j p = stress_tensor u o k0 F j i p.
  Proof.
    rewrite !ds_stress. rewrite (Nat.eqb_sym j i). destruct (E i p) as [a b], (E j p) as [c d], (H i p) as [e f], (H j p) as [h k]. cbn.
    destruct (Nat.eqb i j); ring.
  Qed.
  Lemma ds_stress_trace p : rsum 3 (fun i => stress_tensor u o k0 F i i p) =
    (- / 4 * (epsilon_0 u * rsum 3 (fun c => Cmod (E c p) * Cmod (E c p)) + mu_0 u * rsum 3 (fun c => Cmod (H c p) * Cmod (H c p))))%R.
  Proof.
    assert (forall z : C, fst (Cmult z (Cconj z)) = Cmod z * Cmod z)%R as Hz by (intros z; rewrite Cmod_sq; cbn; ring).
    rewrite (rsum_ext 3 _ (fun i => / 2 * (epsilon_0 u * (Cmod (E i p) * Cmod (E i p)) + mu_0 u * (Cmod (H i p) * Cmod (H i p))
            - / 2 * (epsilon_0 u * rsum 3 (fun c => Cmod (E c p) * Cmod (E c p)) + mu_0 u * rsum 3 (fun c => Cmod (H c p) * Cmod (H c p)))))%R).
    - cbn [rsum]. lra.
    - intros i _. rewrite ds_stress, Nat.eqb_refl, !Hz. reflexivity.
  Qed.

  Lemma ds_force j : exists f d, force_density u o k0 F j = Ok f /\ div g 3 (fun i p => RtoC (stress_tensor u o k0 F i j p)) = Ok d /\
    (forall p, f p = fst (d p)) /\ rsum_over s f = 0%R.
  Proof.
    destruct (div_scaled k0 g 3 (fun i p => RtoC (stress_tensor u o k0 F i j p)) (proj1 (proj2 Hs)) (proj1 Hs) ds_n) as (d & d' & H1 & H2 & H3).
    unfold force_density. rewrite ds_length, Hg, H1. cbn [bind]. do 2 eexists. split; [reflexivity|]. split; [exact H2|].
    assert (forall p, (fst (d p) * k0)%R = fst (d' p)) as He.
    { intros p. rewrite H3. destruct (d p); cbn; ring. }
    split; [exact He|]. rewrite (rsum_over_ext s _ (fun p => fst (d' p))) by (intros; apply He).
    rewrite <- fst_sum_over. unfold s. rewrite (div_sum_zero g 3 _ d' (proj1 Hs) ds_n H2). reflexivity.
  Qed.
  Lemma ds_div : exists d d', div_poynting u o k0 F = Ok d /\ div g 3 (fun c p => RtoC (poynting u o k0 F c p)) = Ok d' /\ forall p, d' p = RtoC k0 * d p.
  Proof.
    unfold div_poynting. rewrite ds_length, Hg. apply div_scaled; [apply Hs|apply Hs|exact ds_n].
  Qed.
  Lemma ds_torque : torque u o k0 F = Ok (fun c => match c with 0%nat => stress_tensor u o k0 F 1 2 | 1%nat => stress_tensor u o k0 F 0 2 | _ => stress_tensor u o k0 F 0 1 end).
  Proof. unfold torque. rewrite Hv. reflexivity. Qed.
End Densities.

(** ** Energy density at a solution *)
Section Energy.
  Variables (u : si) (g : raster) (k0 : R) (alpha : C) (m : R) (e : sfield) (S F : vfield).
  Hypothesis Hu : physical u.
  Hypothesis Hs : solvable true g k0.
  Hypothesis Ha : snd alpha <> 0%R.
  Hypothesis Hm : m <> 0%R.
  Let o := prepare (scaled k0 g) true false alpha (/ m) (TScalar e) tzero tzero (tuniform (RtoC m)) S.
  Let s := rshape g.
  Let E := electric_field k0 F.
  Let H := magnetizing_field u o k0 F.
  Lemma en_energy : wave_equation true g k0 (/ m) (TScalar e) E S -> forall p, inside s p -> energy_density u o k0 F p =
    (/ 4 * (epsilon_0 u * fst (e p) * rsum 3 (fun c => Cmod (E c p) * Cmod (E c p)) + mu_0 u * m * rsum 3 (fun c => Cmod (H c p) * Cmod (H c p))))%R.
  Proof.
    intros HW p Hp. assert (/ m <> 0)%R as Hb by (apply Rinv_neq_0_compat; assumption). unfold energy_density. change (vector_length o) with 3%nat.
    assert (forall c, (c < 3)%nat -> fst (Cmult (E c p) (Cconj (displacement_field u o k0 F c p))) = (epsilon_0 u * fst (e p) * (Cmod (E c p) * Cmod (E c p)))%R) as H1.
    { intros c Hc. pose proof (nf_D u g k0 alpha (/ m) (TScalar e) m S F Hu Hs Ha Hb Hm eq_refl HW c p Hc Hp) as HD. cbn beta in HD. fold o in HD. fold E in HD. rewrite HD. cbn [tapply]. rewrite Cmod_sq.
      destruct (E c p) as [a b], (e p) as [x y]. cbn. ring. }
    assert (forall c, (c < 3)%nat -> fst (Cmult (magnetic_field u o k0 F c p) (Cconj (H c p))) = (mu_0 u * m * (Cmod (H c p) * Cmod (H c p)))%R) as H2.
    { intros c Hc. assert (magnetic_field u o k0 F c p = RtoC (mu_0 u) * RtoC m * H c p) as ->.
      - pose proof (nf_H u g k0 alpha (/ m) (TScalar e) m S F Hu Hs Ha Hb Hm c p Hc Hp) as HH. cbn beta in HH. fold o in HH. fold H in HH. rewrite HH.
        destruct (u_neq u g k0 Hu Hs) as (H1' & H2 & H3 & H4). field. split; auto with cneq.
      - rewrite Cmod_sq. destruct (H c p) as [a b]. cbn. ring. }
    fold E H. rewrite (rsum_ext 3 _ _ H1), (rsum_ext 3 _ _ H2), !rsum_scal. lra.
  Qed.
  Lemma en_nonneg : wave_equation true g k0 (/ m) (TScalar e) E S -> (0 < m)%R -> (forall p, inside s p -> 0 <= fst (e p))%R ->
    forall p, inside s p -> (0 <= energy_density u o k0 F p)%R.
  Proof.
    intros HW Hm0 He p Hp. rewrite (en_energy HW p Hp). destruct Hu as (H1 & H2 & H3 & _).
    assert (forall G : vfield, 0 <= rsum 3 (fun c => Cmod (G c p) * Cmod (G c p)))%R as Hn.
    { intros G. apply rsum_nonneg. intros c _. pose proof (Cmod_ge_0 (G c p)). nra. }
    apply Rmult_le_pos; [lra|]. apply Rplus_le_le_0_compat; apply Rmult_le_pos; auto; apply Rmult_le_pos; try lra. auto.
  Qed.
End Energy.

(** ** The power balance *)
Lemma vip_wave v g k0 beta eps E S : solvable v g k0 -> wave_equation v g k0 beta eps E S ->
  let n := (if v then 3 else 1)%nat in
  snd (vip n (rshape g) E S) = (- (k0 * k0) * snd (vip n (rshape g) E (tapply eps E)))%R.
Proof.
  intros (Hg & Hk & Hn) HW n. rewrite <- (vagree_vip n (rshape g) E _ E S (fun c p _ _ => eq_refl) HW).
  rewrite vip_minus_r, !vip_scal_r. pose proof (curl_curl_form v g E n Hg Hn eq_refl) as H.
  generalize dependent (vip n (rshape g) E (curl_curl_op v g E)). generalize (vip n (rshape g) E (tapply eps E)).
  intros [a b] [c d] H. cbn in *. subst d. ring.
Qed.
Lemma power_balance u v g k0 beta eps E J : physical u -> solvable v g k0 -> wave_equation v g k0 beta eps E (driving u k0 J) ->
  let n := (if v then 3 else 1)%nat in
  (- fst (vip n (rshape g) E J) = k0 * c_light u * epsilon_0 u * snd (vip n (rshape g) E (tapply eps E)))%R.
Proof.
  intros (H1 & H2 & H3 & H4) Hs HW n. pose proof (vip_wave v g k0 beta eps E _ Hs HW) as H. fold n in H. cbv zeta in H. unfold driving in H.
  rewrite vip_scal_r in H. destruct Hs as (_ & Hk & _). generalize dependent (vip n (rshape g) E (tapply eps E)). generalize (vip n (rshape g) E J).
  intros [a b] [x y]. cbn. intros H5.
  assert (k0 * c_light u * mu_0 u * a = - (k0 * k0) * y)%R as H6 by lra.
  assert (c_light u * mu_0 u * a = - k0 * y)%R as H7.
  { apply Rmult_eq_reg_l with k0; [|assumption]. lra. }
  transitivity (- ((c_light u * c_light u * mu_0 u * epsilon_0 u) * a))%R; [rewrite H4; ring|].
  transitivity (- (c_light u * epsilon_0 u * (c_light u * mu_0 u * a)))%R; [ring|]. rewrite H7. ring.
Qed.

(** ** Scalar problems *)
Lemma curl_scalar g G p : curl g 1 G 0%nat p = 0.
Proof.
  unfold curl. rewrite <- (convolve_zero (rshape g) G 0%nat p). apply convolve_ext. intros k Hk. unfold curl_ft. cbn [Nat.add Nat.sub Nat.modulo]. cbn. ring.
Qed.
Section Scalar.
  Variables (u : si) (k0 : R) (o : ops) (F : vfield).
  Hypothesis Hv : o_vectorial o = false.
  Lemma sc_length : vector_length o = 1%nat.
  Proof. unfold vector_length. rewrite Hv. reflexivity. Qed.
  Lemma sc_B p : magnetic_field u o k0 F 0%nat p = 0.
  Proof. unfold magnetic_field. rewrite sc_length, curl_scalar. unfold Cdiv. ring. Qed.
  Lemma sc_H p : o_magnetic o = false -> magnetizing_field u o k0 F 0%nat p = 0.
  Proof. intros Hm. unfold magnetizing_field. rewrite Hm, sc_length, curl_scalar. ring. Qed.
  Lemma sc_S p : poynting u o k0 F 0%nat p = 0%R.
  Proof.
    unfold poynting. rewrite sc_length. unfold cross. cbn [Nat.add Nat.sub]. change (1 mod 1)%nat with 0%nat. change (0 mod 1)%nat with 0%nat.
    replace (electric_field k0 F 0%nat p * Cconj (magnetizing_field u o k0 F 0%nat p) - electric_field k0 F 0%nat p * Cconj (magnetizing_field u o k0 F 0%nat p)) with (RtoC 0) by ring.
    cbn. ring.
  Qed.
  Lemma sc_force j : (1 < rndim (o_grid o))%nat -> force_density u o k0 F j = Err IndexError.
  Proof. intros Hn. unfold force_density. rewrite sc_length, div_too_few by assumption. reflexivity. Qed.
  Lemma sc_div : (1 < rndim (o_grid o))%nat -> div_poynting u o k0 F = Err IndexError.
  Proof. intros Hn. unfold div_poynting. rewrite sc_length. apply div_too_few. assumption. Qed.
  Lemma sc_torque : torque u o k0 F = Err IndexError.
  Proof. unfold torque. rewrite Hv. reflexivity. Qed.
End Scalar.

Lemma scalar_derived u k0 o F : o_vectorial o = false ->
  (forall p, magnetic_field u o k0 F 0%nat p = 0) /\ (o_magnetic o = false -> forall p, magnetizing_field u o k0 F 0%nat p = 0) /\
  (forall p, poynting u o k0 F 0%nat p = 0%R) /\ torque u o k0 F = Err IndexError /\
  ((1 < rndim (o_grid o))%nat -> div_poynting u o k0 F = Err IndexError /\ forall j, force_density u o k0 F j = Err IndexError).
Proof.
  intros Hv. split; [intros p; apply sc_B; assumption|]. split; [intros Hm p; apply sc_H; assumption|].
  split; [intros p; apply sc_S; assumption|]. split; [apply sc_torque; assumption|].
  intros Hn. split; [apply sc_div; assumption|intros j; apply sc_force; assumption].
Qed.

(** ** Statements at fixed points *)
Lemma constitutive_B_reported u g k0 alpha beta eps xi zeta mu nu S F : physical u -> solvable true g k0 -> snd alpha <> 0%R -> beta <> 0%R ->
  inverse_of (rshape g) mu nu ->
  let o := prepare (scaled k0 g) true true alpha beta eps xi zeta mu S in
  vagree 3 (rshape g) (magnetic_field u o k0 F) (constitutive_B u zeta mu (electric_field k0 F) (magnetizing_field u o k0 F)).
Proof.
  intros Hu Hs Ha Hb Hnu o. pose proof (magnetic_H u g k0 alpha beta eps xi zeta mu nu S Hu Hs Ha Hb Hnu F) as HH.
  apply (faraday_unique u g k0 zeta mu nu Hu Hs Hnu) in HH. pose proof (fl_faraday u g k0 o F Hu Hs eq_refl eq_refl) as HB.
  intros c p Hc Hp. specialize (HH c p Hc Hp). specialize (HB c p Hc Hp). rewrite HB in HH. fold o in HH.
  destruct (u_neq u g k0 Hu Hs) as (H1 & H2 & H3 & H4). pose proof Ci_neq.
  set (w := Ci * RtoC (k0 * c_light u)) in *. assert (w <> 0) by (unfold w; rewrite RtoC_mult; repeat apply Cmult_neq_0; assumption).
  transitivity (w * magnetic_field u o k0 F c p / w); [field; assumption|]. rewrite HH. field. assumption.
Qed.
Lemma ampere_driving u g k0 o F J : physical u -> solvable true g k0 -> o_grid o = scaled k0 g -> o_vectorial o = true ->
  vagree 3 (rshape g) (source_distribution o) (driving u k0 J) ->
  ampere u g k0 (magnetizing_field u o k0 F) (displacement_field u o k0 F) J.
Proof.
  intros Hu Hs Hg Hv HJ c p Hc Hp. rewrite (fl_ampere u g k0 o F Hu Hs Hg Hv c p Hc Hp). f_equal. unfold true_current.
  rewrite (HJ c p Hc Hp). unfold driving. destruct (u_neq u g k0 Hu Hs) as (H1 & H2 & H3 & H4). pose proof Ci_neq. rewrite RtoC_mult. field. auto.
Qed.
Lemma displacement_fixed u g k0 alpha eps m S F : physical u -> solvable true g k0 -> fits true eps -> snd alpha <> 0%R -> m <> 0%R ->
  let o := prepare (scaled k0 g) true false alpha (/ m) eps tzero tzero (tuniform (RtoC m)) S in
  injective (rshape g) (o_chiEE o) -> vagree 3 (rshape g) (update o F) (fun _ _ => 0) ->
  vagree 3 (rshape g) (displacement_field u o k0 F) (fun c p => RtoC (epsilon_0 u) * tapply eps (electric_field k0 F) c p).
Proof.
  intros Hu Hs Hf Ha Hm o Hi H. assert (/ m <> 0)%R as Hb by (apply Rinv_neq_0_compat; assumption).
  apply (nf_D u g k0 alpha (/ m) eps m S F Hu Hs Ha Hb Hm eq_refl).
  exact (proj1 (fixed_point_wave true g k0 alpha (/ m) eps (tuniform (RtoC m)) S Hs Hf I F Ha Hb Hi) H).
Qed.
Lemma source_prepared g v m alpha beta eps xi zeta mu S c p : snd alpha <> 0%R -> beta <> 0%R ->
  source_distribution (prepare g v m alpha beta eps xi zeta mu S) c p = S c p.
Proof.
  intros Ha Hb. rewrite prepare_precondition by assumption. unfold source_distribution. cbn [o_source o_beta o_alpha precondition].
  pose proof Ci_neq. assert (RtoC beta <> 0) by auto with cneq. assert (im alpha <> 0) by auto with cneq. field. auto.
Qed.
Lemma displacement_maxwell u g k0 alpha beta eps xi zeta mu nu J F : physical u -> solvable true g k0 -> snd alpha <> 0%R -> beta <> 0%R ->
  inverse_of (rshape g) mu nu ->
  let o := prepare (scaled k0 g) true true alpha beta eps xi zeta mu (driving u k0 J) in
  let H := magnetizing_field u o k0 F in
  maxwell u g k0 eps xi zeta mu (electric_field k0 F) H J <->
  vagree 3 (rshape g) (displacement_field u o k0 F) (constitutive_D u eps xi (electric_field k0 F) H).
Proof.
  intros Hu Hs Ha Hb Hnu o H.
  assert (ampere u g k0 H (displacement_field u o k0 F) J) as HA.
  { apply ampere_driving; try assumption; try reflexivity. intros c p _ _. apply source_prepared; assumption. }
  split.
  - intros (_ & HM). exact (ampere_displacement u g k0 Hu Hs H _ _ J HA HM).
  - intros HD. split.
    + apply (faraday_unique u g k0 zeta mu nu Hu Hs Hnu). exact (magnetic_H u g k0 alpha beta eps xi zeta mu nu _ Hu Hs Ha Hb Hnu F).
    + exact (ampere_ext u g k0 Hs H H _ _ J (fun c p _ _ => eq_refl) HD HA).
Qed.
Lemma energy_fixed u g k0 alpha m e S F : physical u -> solvable true g k0 -> snd alpha <> 0%R -> m <> 0%R ->
  let o := prepare (scaled k0 g) true false alpha (/ m) (TScalar e) tzero tzero (tuniform (RtoC m)) S in
  let E := electric_field k0 F in let H := magnetizing_field u o k0 F in
  injective (rshape g) (o_chiEE o) -> vagree 3 (rshape g) (update o F) (fun _ _ => 0) ->
  forall p, inside (rshape g) p ->
  energy_density u o k0 F p = (/ 4 * (epsilon_0 u * fst (e p) * rsum 3 (fun c => Cmod (E c p) * Cmod (E c p)) +
                                      mu_0 u * m * rsum 3 (fun c => Cmod (H c p) * Cmod (H c p))))%R /\
  ((0 < m)%R -> (forall p, inside (rshape g) p -> 0 <= fst (e p))%R -> (0 <= energy_density u o k0 F p)%R).
Proof.
  intros Hu Hs Ha Hm o E H Hi HF p Hp. assert (/ m <> 0)%R as Hb by (apply Rinv_neq_0_compat; assumption).
  pose proof (proj1 (fixed_point_wave true g k0 alpha (/ m) (TScalar e) (tuniform (RtoC m)) S Hs I I F Ha Hb Hi) HF) as HW.
  split; [exact (en_energy u g k0 alpha m e S F Hu Hs Ha Hm HW p Hp)|].
  intros Hm0 He. exact (en_nonneg u g k0 alpha m e S F Hu Hs Ha Hm HW Hm0 He p Hp).
Qed.

(** ** A problem with a divergence that is reported incorrectly *)
Section DivWitness.
  Variables (u : si) (k0 : R).
  Hypothesis Hu : physical u.
  Hypothesis Hk : k0 <> 0%R.
  Definition beat_ops : ops := prepare (scaled k0 line) true false Ci 1 (tuniform 1) tzero tzero (tuniform (RtoC 1)) (fun _ _ => 0).
  Definition beat : vfield := fun c p => eye c 1 * plane_wave line [0%nat] p + eye c 1 * plane_wave line [1%nat] p.
  Let k := wavevector line [1%nat] 0.
  Lemma beat_solvable : solvable true line k0.
  Proof. destruct line_solvable as (H1 & _ & H3). exact (conj H1 (conj Hk H3)). Qed.
  Lemma beat_k : k <> 0%R.
  Proof. unfold k, wavevector. cbn [rndim rshape line length Nat.ltb Nat.leb]. unfold kvec. cbn [nth rshape rstep line]. apply k_axis_nonzero; [lia|lra]. Qed.
  Lemma beat_wave0 j : (j < 4)%nat -> plane_wave line [0%nat] [j] = 1.
  Proof. intros Hj. apply (plane_wave_origin line [j]). apply line_solvable. Qed.
  Lemma beat_curl c p : (c < 3)%nat -> inside [4%nat] p ->
    curl line 3 beat c p = if Nat.eqb c 2 then Ci * RtoC k * plane_wave line [1%nat] p else 0.
  Proof.
    intros Hc Hp. unfold beat. rewrite curl_plus; [|cbn; lia|assumption|assumption].
    rewrite (curl_plane_wave line (fun c => eye c 1) [0%nat]); [|apply line_solvable|cbn; lia|repeat constructor|lia|assumption].
    rewrite (curl_plane_wave line (fun c => eye c 1) [1%nat]); [|apply line_solvable|cbn; lia|repeat constructor|lia|assumption].
    assert (forall m i, (0 < i)%nat -> wavevector line m i = 0%R) as H1.
    { intros m i Hi. unfold wavevector. destruct i; [lia|]. reflexivity. }
    assert (wavevector line [0%nat] 0 = 0%R) as H0.
    { apply (wavevector_origin line [0%nat] 0); [apply line_solvable|repeat constructor|reflexivity]. }
    destruct c as [|[|[|c]]]; [| | |lia]; unfold cross3, eye; cbn [Nat.eqb]; rewrite ?(H1 [0%nat] 1%nat), ?(H1 [1%nat] 1%nat), ?(H1 [0%nat] 2%nat), ?(H1 [1%nat] 2%nat), ?H0 by lia; fold k; ring.
  Qed.
  Definition amplitude : R := (k / (2 * mu_0 u * c_light u * (k0 * k0 * k0 * k0 * k0)))%R.
  Lemma beat_S p : inside [4%nat] p -> poynting u beat_ops k0 beat 0%nat p = (amplitude * (1 + fst (plane_wave line [1%nat] p)))%R.
  Proof.
    intros Hp. destruct (u_neq u line k0 Hu beat_solvable) as (H1 & H2 & H3 & H4).
    assert (forall c, (c < 3)%nat -> magnetizing_field u beat_ops k0 beat c p =
      if Nat.eqb c 2 then RtoC (k / (mu_0 u * c_light u * (k0 * k0 * k0))) * plane_wave line [1%nat] p else 0) as HH.
    { intros c Hc. unfold beat_ops. rewrite (nf_H u line k0 Ci 1 (tuniform 1) 1 (fun _ _ => 0) beat Hu beat_solvable) by (try assumption; cbn; lra).
      fold beat_ops. rewrite (fl_B u line k0 beat_ops beat Hu beat_solvable eq_refl eq_refl c p Hc Hp).
      assert (electric_field k0 beat = fun c p => / RtoC (k0 * k0) * beat c p) as ->.
      { apply FunctionalExtensionality.functional_extensionality. intros d. apply FunctionalExtensionality.functional_extensionality. intros q.
        unfold electric_field, Cdiv. ring. }
      rewrite curl_scal by (try assumption; cbn; lia). rewrite beat_curl by assumption. pose proof Ci_neq.
      destruct Hu as (U1 & U2 & U3 & _).
      destruct (Nat.eqb c 2).
      - rewrite RtoC_div by (repeat apply Rmult_integral_contrapositive_currified; lra). rewrite !RtoC_mult. field.
        repeat split; auto; apply (RtoC_neq 1); lra.
      - unfold Cdiv. ring. }
    rewrite ds_poynting by (reflexivity || lia). unfold cross3. rewrite (HH 1%nat), (HH 2%nat) by lia. cbn [Nat.eqb].
    unfold electric_field, beat, eye. cbn [Nat.eqb].
    assert (plane_wave line [0%nat] p = 1) as ->.
    { apply (plane_wave_origin line p). apply line_solvable. }
    assert (Cmod (plane_wave line [1%nat] p) = 1%R) as Hm by apply cis_mod.
    destruct Hu as (U1 & U2 & U3 & _).
    pose proof (Cmod_sq (plane_wave line [1%nat] p)) as Hq. rewrite Hm in Hq. destruct (plane_wave line [1%nat] p) as [a b]. cbn in Hq.
    assert (forall z : C, z / RtoC (k0 * k0) = RtoC (/ (k0 * k0)) * z) as Hz.
    { intros z. rewrite RtoC_inv by (apply Rmult_integral_contrapositive_currified; assumption). unfold Cdiv. ring. }
    rewrite !Hz. unfold amplitude. cbn. change (kvec line 0 [1%nat]) with k.
    transitivity (k / (2 * mu_0 u * c_light u * (k0 * k0 * k0 * k0 * k0)) * (a + (a * a + b * b)))%R; [field; repeat split; lra || assumption|].
    rewrite <- Hq. field. repeat split; lra || assumption.
  Qed.
  Lemma beat_values : fst (plane_wave line [1%nat] [0%nat]) = 1%R /\ fst (plane_wave line [1%nat] [1%nat]) = 0%R /\
    fst (plane_wave line [1%nat] [2%nat]) = (-1)%R /\ fst (plane_wave line [1%nat] [3%nat]) = 0%R.
  Proof.
    assert (forall j, (j < 4)%nat -> fst (plane_wave line [1%nat] [j]) = cos (INR j * (PI / 2))) as H.
    { intros j Hj. assert (forall i, (i < 4)%nat -> inside (rshape line) [i]) as Hi by (intros i Hi; constructor; [exact Hi|constructor]).
      rewrite (plane_wave_phase line [1%nat] [j] (proj1 line_solvable) (Hi 1%nat ltac:(lia)) (Hi j Hj)). unfold cis. cbn [fst].
      f_equal. cbn [phase rshape line]. cbn [INR]. field. }
    rewrite !H by lia. cbn [INR]. repeat split.
    - rewrite Rmult_0_l. apply cos_0.
    - rewrite Rmult_1_l. apply cos_PI2.
    - replace ((1 + 1) * (PI / 2))%R with PI by field. apply cos_PI.
    - replace ((1 + 1 + 1) * (PI / 2))%R with (3 * (PI / 2))%R by ring. apply cos_3PI2.
  Qed.
  Lemma beat_ft : ft [4%nat] (fun p => RtoC (poynting u beat_ops k0 beat 0%nat p)) [1%nat] = RtoC (2 * amplitude).
  Proof.
    unfold ft. cbn [sum_over csum].
    assert (forall j, (j < 4)%nat -> inside [4%nat] [j]) as Hi by (intros j Hj; constructor; [exact Hj|constructor]).
    rewrite !beat_S by (apply Hi; lia). destruct beat_values as (-> & -> & -> & ->). unfold cis. cbn [phase].
    assert (forall x : R, cos (- x) = cos x /\ sin (- x) = - sin x)%R as Hcs by (intros; split; [apply cos_neg|apply sin_neg]).
    assert (forall j, (- (2 * PI * (j * 1) / (1 + 1 + 1 + 1) + 0) = - (j * (PI / 2)))%R) as Ht by (intros; field).
    cbn [INR]. rewrite !Ht. rewrite !(proj1 (Hcs _)), !(proj2 (Hcs _)).
    replace (0 * (PI / 2))%R with 0%R by ring. replace (1 * (PI / 2))%R with (PI / 2)%R by ring.
    replace ((1 + 1) * (PI / 2))%R with PI by field. replace ((1 + 1 + 1) * (PI / 2))%R with (3 * (PI / 2))%R by ring.
    rewrite cos_0, sin_0, cos_PI2, sin_PI2, cos_PI, sin_PI, cos_3PI2, sin_3PI2. apply C_eq; cbn; ring.
  Qed.
  Lemma beat_divergence : k0 <> 1%R -> exists d d' p, div_poynting u beat_ops k0 beat = Ok d /\
    div line 3 (fun c p => RtoC (poynting u beat_ops k0 beat c p)) = Ok d' /\ inside (rshape line) p /\ d p <> d' p.
  Proof.
    intros H1. destruct (ds_div u line k0 beat_ops beat beat_solvable eq_refl eq_refl) as (d & d' & Hd & Hd' & He).
    assert (forall j, (j < 4)%nat -> inside [4%nat] [j]) as Hi by (intros j Hj; constructor; [exact Hj|constructor]).
    assert (forall j, {d [j] = d' [j]} + {d [j] <> d' [j]}) as Hdec by (intros j; apply Ceq_dec).
    destruct (Hdec 0%nat) as [E0|N]; [|exists d, d', [0%nat]; repeat split; auto; apply Hi; lia].
    destruct (Hdec 1%nat) as [E1|N]; [|exists d, d', [1%nat]; repeat split; auto; apply Hi; lia].
    destruct (Hdec 2%nat) as [E2|N]; [|exists d, d', [2%nat]; repeat split; auto; apply Hi; lia].
    destruct (Hdec 3%nat) as [E3|N]; [|exists d, d', [3%nat]; repeat split; auto; apply Hi; lia].
    exfalso.
    assert (forall p, d p = d' p -> d' p = 0) as Hz.
    { intros p E. rewrite (He p) in E. rewrite (He p). assert (RtoC k0 - 1 <> 0) as Hn.
      { intros E'. apply (f_equal fst) in E'. cbn in E'. lra. }
      assert ((RtoC k0 - 1) * d p = 0) as E4 by (transitivity (RtoC k0 * d p - d p); [ring|rewrite <- E; ring]).
      destruct (Ceq_dec (d p) 0) as [->|Hd0]; [ring|]. exfalso. exact (Cmult_neq_0 _ _ Hn Hd0 E4). }
    assert (ft [4%nat] d' [1%nat] = 0) as Hft.
    { unfold ft. cbn [sum_over csum]. rewrite !Hz by assumption. ring. }
    unfold div, div_ft in Hd'. cbn [rndim line rshape length Nat.ltb Nat.leb bind] in Hd'. injection Hd' as <-.
    rewrite (ft_ift [4%nat]) in Hft by (apply Hi; lia). unfold csum, vft in Hft. rewrite beat_ft in Hft.
    change (kvec line 0 [1%nat]) with k in Hft. revert Hft. destruct Hu as (U1 & U2 & U3 & _). pose proof beat_k as Hkk.
    assert (amplitude <> 0%R) as HA.
    { unfold amplitude, Rdiv. apply Rmult_integral_contrapositive_currified; [assumption|]. apply Rinv_neq_0_compat.
      repeat apply Rmult_integral_contrapositive_currified; lra || assumption. }
    intros E. apply (f_equal snd) in E. cbn in E. change (kvec line 0 [1%nat]) with k in E. assert (k * (2 * amplitude) = 0)%R as E5 by lra.
    apply Rmult_integral in E5. destruct E5 as [E5|E5]; [contradiction|]. lra.
  Qed.
End DivWitness.
