(** Proofs about the derived fields and densities. *)
From Coq Require Import Reals Lra Lia List Arith Bool FunctionalExtensionality.
Require Import Verif.Base Verif.Cplx Verif.CSum Verif.Field Verif.Fourier_Model Verif.Fourier_Spec Verif.Fourier_Proofs.
Require Import Verif.Vec_Model Verif.Vec_Spec Verif.Vec_Proofs Verif.Solver_Model Verif.Solver_Spec Verif.Solver_Proofs.
Require Import Verif.Solver_Convergence Verif.Solver_Limit Verif.Solver_Choice.
Require Import Verif.Derived_Model Verif.Derived_Spec Verif.Derived_Tensor Verif.Solver_Maxwell Verif.Solver_Bounded.
Import ListNotations.
Local Open Scope R_scope.
Local Open Scope C_scope.

Lemma field_electric k0 F : k0 <> 0%R -> F = (fun c p => RtoC (k0 * k0) * electric_field k0 F c p).
Proof.
  intros Hk. assert (RtoC k0 <> 0) by auto with cneq. apply functional_extensionality. intros c. apply functional_extensionality. intros p.
  unfold electric_field. rewrite RtoC_mult. field. assumption.
Qed.

Lemma opposite_zero (z : C) : z = - z -> z = 0.
Proof. destruct z as [a b]. intros H. injection H as H1 H2. apply C_eq; cbn; lra. Qed.

(** ** C20 *)
Section Magnetic.
  Variables (u : si) (g : raster) (k0 : R) (alpha : C) (beta : R) (eps xi zeta mu nu : tensor) (S : vfield).
  Hypothesis Hu : physical u.
  Hypothesis Hs : solvable true g k0.
  Hypothesis Ha : snd alpha <> 0%R.
  Hypothesis Hb : beta <> 0%R.
  Hypothesis Hnu : inverse_of (rshape g) mu nu.
  Let o := prepare (scaled k0 g) true true alpha beta eps xi zeta mu S.
  Let s := rshape g.

  Lemma magnetic_H F : vagree 3 s (magnetizing_field u o k0 F) (faraday_H u g k0 zeta nu (electric_field k0 F)).
  Proof.
    destruct (u_neq u g k0 Hu Hs) as (H1 & H2 & H3 & H4). destruct Hs as (Hg & Hk & Hn). specialize (Hn eq_refl).
    assert (RtoC beta <> 0) by auto with cneq. assert (im alpha <> 0) by auto with cneq.
    unfold o. rewrite prepare_precondition by assumption. intros c p Hc Hp. unfold magnetizing_field.
    cbn [o_magnetic o_beta o_alpha o_grid o_chiHH o_chiHE precondition]. change (vector_length _) with 3%nat.
    set (E := electric_field k0 F).
    assert (vagree 3 s (curl (scaled k0 g) 3 E) (fun c p => / RtoC k0 * curl g 3 E c p)) as HD.
    { intros d q Hd Hq. rewrite (curl_scaled k0 g E Hk Hg Hn d q Hd Hq). unfold Cdiv. ring. }
    rewrite (tapply_ext3 s _ _ _ HD c p Hc Hp), tapply_scal. rewrite !tapply_tscale, tapply_tsub by assumption. rewrite !tapply_tscale, tapply_tsub by assumption.
    rewrite tapply_tscale, tapply_tmul. rewrite !(tinv_inverse s mu nu _ Hnu c p Hc Hp). unfold faraday_H. cbn [tapply].
    transitivity (/ (RtoC (mu_0 u) * RtoC (c_light u)) * (- (Ci / RtoC k0) * (beta * (1 + Ci * Ci) * curl g 3 E c p - (Ci * Ci) * tapply nu (curl g 3 E) c p)
      + - (Ci * Ci) * Ci * Ci * tapply nu (tapply zeta E) c p)).
    - field. auto.
    - transitivity (/ (RtoC (mu_0 u) * RtoC (c_light u)) * (- (Ci / RtoC k0) * (beta * (1 + Ci * Ci) * curl g 3 E c p - (Ci * Ci) * tapply nu (curl g 3 E) c p)
      + - (Ci * Ci) * (Ci * Ci) * tapply nu (tapply zeta E) c p)); [ring|]. rewrite Ci_sq. ring.
  Qed.
End Magnetic.

Section MagneticFixed.
  Variables (u : si) (g : raster) (k0 : R) (alpha : C) (beta : R) (eps xi zeta mu nu : tensor) (J F : vfield).
  Hypothesis Hu : physical u.
  Hypothesis Hs : solvable true g k0.
  Hypothesis Ha : snd alpha <> 0%R.
  Hypothesis Hb : beta <> 0%R.
  Hypothesis Hnu : inverse_of (rshape g) mu nu.
  Let o := prepare (scaled k0 g) true true alpha beta eps xi zeta mu (driving u k0 J).
  Let s := rshape g.
  Let E := electric_field k0 F.

  Lemma mf_coded : operator_injective 3 s (chi_op o) -> vagree 3 s (update o F) (fun _ _ => 0) -> vagree 3 s (coded g k0 eps xi zeta nu E) (driving u k0 J).
  Proof.
    intros Hi H. rewrite (field_electric k0 F (proj1 (proj2 Hs))) in H.
    exact (mg_coded_of_fixed g k0 alpha beta eps xi zeta mu nu (driving u k0 J) Hs Ha Hb Hnu E Hi H).
  Qed.
  Lemma mf_fixed : vagree 3 s (coded g k0 eps xi zeta nu E) (driving u k0 J) -> vagree 3 s (update o F) (fun _ _ => 0).
  Proof.
    intros H. rewrite (field_electric k0 F (proj1 (proj2 Hs))).
    exact (mg_fixed_of_coded g k0 alpha beta eps xi zeta mu nu (driving u k0 J) Hs Ha Hb Hnu E H).
  Qed.
  Definition couples : Prop := vagree 3 s (curl g 3 (coupling xi zeta nu E)) (coupling xi zeta nu (curl g 3 E)).
  Lemma coded_second_order : couples -> vagree 3 s (coded g k0 eps xi zeta nu E) (second_order g k0 eps xi zeta nu E).
  Proof.
    intros H c p Hc Hp. pose proof (second_order_coded g k0 eps xi zeta nu Hs E c p Hc Hp) as H0. cbn beta in H0. rewrite (H c p Hc Hp) in H0.
    transitivity (coded g k0 eps xi zeta nu E c p - second_order g k0 eps xi zeta nu E c p + second_order g k0 eps xi zeta nu E c p); [ring|].
    rewrite H0. ring.
  Qed.
  Lemma mf_maxwell_iff : operator_injective 3 s (chi_op o) -> vagree 3 s (update o F) (fun _ _ => 0) ->
    (maxwell u g k0 eps xi zeta mu E (magnetizing_field u o k0 F) J <-> couples).
  Proof.
    intros Hi H. pose proof (mf_coded Hi H) as Hc. rewrite (maxwell_second_order u g k0 eps xi zeta mu nu Hu Hs Hnu). split.
    - intros (_ & H2) c p Hc' Hp. pose proof (second_order_coded g k0 eps xi zeta nu Hs E c p Hc' Hp) as H0. cbn beta in H0.
      rewrite (Hc c p Hc' Hp), (H2 c p Hc' Hp) in H0.
      assert (RtoC k0 <> 0) by (apply RtoC_neq, Hs). pose proof Ci_neq.
      transitivity (Ci * RtoC k0 * (curl g 3 (coupling xi zeta nu E) c p - coupling xi zeta nu (curl g 3 E) c p) / (Ci * RtoC k0) + coupling xi zeta nu (curl g 3 E) c p); [field; auto|].
      rewrite <- H0. field. auto.
    - intros H2. split; [exact (magnetic_H u g k0 alpha beta eps xi zeta mu nu (driving u k0 J) Hu Hs Ha Hb Hnu F)|].
      eapply vagree_trans; [apply vagree_sym, coded_second_order; assumption|exact Hc].
  Qed.
  Lemma mf_fixed_of_maxwell H : couples -> maxwell u g k0 eps xi zeta mu E H J ->
    vagree 3 s (update o F) (fun _ _ => 0) /\ vagree 3 s H (magnetizing_field u o k0 F).
  Proof.
    intros Hco HM. apply (maxwell_second_order u g k0 eps xi zeta mu nu Hu Hs Hnu) in HM. destruct HM as (HH & H2). split.
    - apply mf_fixed. eapply vagree_trans; [apply coded_second_order; assumption|exact H2].
    - eapply vagree_trans; [exact HH|]. apply vagree_sym. exact (magnetic_H u g k0 alpha beta eps xi zeta mu nu (driving u k0 J) Hu Hs Ha Hb Hnu F).
  Qed.
End MagneticFixed.

(** A coupling that is the same multiple of the identity everywhere commutes with the curl. *)
Lemma uniform_coupling g k0 xi zeta nu kappa F : (rndim g <= 3)%nat ->
  (forall G, vagree 3 (rshape g) (coupling xi zeta nu G) (fun c p => kappa * G c p)) -> couples g k0 xi zeta nu F.
Proof.
  intros Hn H c p Hc Hp. rewrite (H _ c p Hc Hp), <- curl_scal by assumption. apply curl_vagree; try assumption. apply H.
Qed.

(** A fixed point whose reported fields do not satisfy Maxwell's equations. *)
Section Counterexample.
  Variables (u : si) (alpha : C) (beta : R).
  Hypothesis Hu : physical u.
  Hypothesis Ha : snd alpha <> 0%R.
  Hypothesis Hb : beta <> 0%R.
  Definition line : raster := {| rshape := [4%nat]; rstep := [1%R] |}.
  Definition zeta_y : tensor := TMatrix (fun i j _ => if (Nat.eqb i 1 && Nat.eqb j 1)%bool then 1 else 0).
  Definition wave_y : vfield := fun c p => eye c 1 * plane_wave line [1%nat] p.
  Definition current_y : vfield := fun c p =>
    coded line 1 (tuniform 1) tzero zeta_y (tuniform 1) (electric_field 1 wave_y) c p / (Ci * RtoC (1 * c_light u) * RtoC (mu_0 u)).

  Lemma line_solvable : solvable true line 1.
  Proof. repeat split; cbn; repeat constructor; lra || lia || auto. Qed.
  Lemma one_inverse s : inverse_of s (tuniform 1) (tuniform 1).
  Proof. intros F. split; intros c p _ _; cbn; ring. Qed.
  Lemma line_electric : electric_field 1 wave_y = wave_y.
  Proof.
    apply functional_extensionality. intros c. apply functional_extensionality. intros p. unfold electric_field. rewrite RtoC_mult. field.
    intros E. apply RtoC_inj in E. lra.
  Qed.
  Lemma line_driving : vagree 3 [4%nat] (coded line 1 (tuniform 1) tzero zeta_y (tuniform 1) (electric_field 1 wave_y)) (driving u 1 current_y).
  Proof.
    intros c p _ _. destruct (u_neq u line 1 Hu line_solvable) as (H1 & H2 & H3 & H4). pose proof Ci_neq.
    unfold driving, current_y. rewrite RtoC_mult. field. auto.
  Qed.
  Lemma line_fixed : vagree 3 [4%nat] (update (prepare (scaled 1 line) true true alpha beta (tuniform 1) tzero zeta_y (tuniform 1) (driving u 1 current_y)) wave_y) (fun _ _ => 0).
  Proof.
    exact (mf_fixed u line 1 alpha beta (tuniform 1) tzero zeta_y (tuniform 1) (tuniform 1) current_y wave_y line_solvable Ha Hb
      (one_inverse _) line_driving).
  Qed.
  Lemma line_not_couples : ~ couples line 1 tzero zeta_y (tuniform 1) wave_y.
  Proof.
    intros H. specialize (H 2%nat [0%nat] ltac:(lia) ltac:(repeat constructor)). rewrite line_electric in H.
    assert (coupling tzero zeta_y (tuniform 1) (curl line 3 wave_y) 2%nat [0%nat] = 0) as E0.
    { unfold coupling. cbn. ring. }
    rewrite E0 in H. clear E0.
    assert (curl line 3 (coupling tzero zeta_y (tuniform 1) wave_y) 2%nat [0%nat] = curl line 3 wave_y 2%nat [0%nat]) as E1.
    { apply curl_vagree; [cbn; lia| |lia|repeat constructor]. intros c p Hc Hp. unfold coupling, wave_y, eye.
      destruct c as [|[|[|c]]]; [| | |lia]; cbn; ring. }
    rewrite E1 in H. clear E1. unfold wave_y in H.
    rewrite (curl_plane_wave line (fun c => eye c 1) [1%nat]) in H; [|apply line_solvable|cbn; lia|repeat constructor|lia|repeat constructor].
    assert (wavevector line [1%nat] 0 <> 0%R) as Hk.
    { unfold wavevector. cbn [rndim rshape line length Nat.ltb Nat.leb]. unfold kvec. cbn [nth rshape rstep line]. apply k_axis_nonzero; [lia|lra]. }
    unfold cross3, eye in H. cbn [Nat.eqb] in H.
    assert (plane_wave line [1%nat] [0%nat] <> 0) as Hw.
    { intros E. apply (f_equal Cmod) in E. unfold plane_wave in E. rewrite cis_mod, Cmod_0 in E. lra. }
    apply RtoC_neq in Hk. pose proof Ci_neq. revert H. apply Cmult_neq_0; [|assumption].
    apply Cmult_neq_0; [assumption|]. intros E. apply Hk. rewrite <- E. ring.
  Qed.
  Lemma line_not_maxwell H : ~ maxwell u line 1 (tuniform 1) tzero zeta_y (tuniform 1) (electric_field 1 wave_y) H current_y.
  Proof.
    intros HM. apply (maxwell_second_order u line 1 (tuniform 1) tzero zeta_y (tuniform 1) (tuniform 1) Hu line_solvable (one_inverse _)) in HM.
    destruct HM as (_ & H2). apply line_not_couples. intros c p Hc Hp.
    pose proof (second_order_coded line 1 (tuniform 1) tzero zeta_y (tuniform 1) line_solvable (electric_field 1 wave_y) c p Hc Hp) as H0. cbn beta in H0.
    rewrite (line_driving c p Hc Hp), (H2 c p Hc Hp) in H0. pose proof Ci_neq. assert (RtoC 1 <> 0) by (apply RtoC_neq; lra).
    set (X := curl line 3 (coupling tzero zeta_y (tuniform 1) (electric_field 1 wave_y)) c p) in *.
    set (Y := coupling tzero zeta_y (tuniform 1) (curl line 3 (electric_field 1 wave_y)) c p) in *.
    transitivity (Ci * RtoC 1 * (X - Y) / (Ci * RtoC 1) + Y); [field; auto|]. rewrite <- H0. field. auto.
  Qed.
End Counterexample.

(** ** C21 *)
Section Fields.
  Variables (u : si) (g : raster) (k0 : R) (o : ops) (F : vfield).
  Hypothesis Hu : physical u.
  Hypothesis Hs : solvable true g k0.
  Hypothesis Hg : o_grid o = scaled k0 g.
  Hypothesis Hv : o_vectorial o = true.
  Let s := rshape g.
  Let E := electric_field k0 F.
  Lemma fl_n : (rndim g <= 3)%nat.
  Proof. destruct Hs as (_ & _ & H). auto. Qed.
  Lemma fl_curl G : vagree 3 s (curl (o_grid o) (vector_length o) G) (fun c p => / RtoC k0 * curl g 3 G c p).
  Proof.
    intros c p Hc Hp. unfold vector_length. rewrite Hg, Hv. rewrite (curl_scaled k0 g G (proj1 (proj2 Hs)) (proj1 Hs) fl_n c p Hc Hp). unfold Cdiv. ring.
  Qed.
  Lemma fl_B : vagree 3 s (magnetic_field u o k0 F) (fun c p => / (Ci * RtoC (k0 * c_light u)) * curl g 3 E c p).
  Proof.
    intros c p Hc Hp. destruct (u_neq u g k0 Hu Hs) as (H1 & H2 & H3 & H4). pose proof Ci_neq.
    unfold magnetic_field. fold E. rewrite fl_curl by assumption. rewrite RtoC_mult. field. auto.
  Qed.
  Lemma fl_faraday : faraday u g k0 E (magnetic_field u o k0 F).
  Proof.
    intros c p Hc Hp. destruct (u_neq u g k0 Hu Hs) as (H1 & H2 & H3 & H4). pose proof Ci_neq. rewrite fl_B by assumption.
    rewrite RtoC_mult. field. auto.
  Qed.
  Lemma div_vagree n G H d : vagree n s G H -> (rndim g <= n)%nat -> div g n G = Ok d -> exists d', div g n H = Ok d' /\ agree s d d'.
  Proof.
    intros HGH Hn. unfold div, div_ft. destruct (Nat.ltb_spec n (rndim g)); [lia|]. cbn. intros H1. injection H1 as <-.
    eexists. split; [reflexivity|]. intros p Hp. apply ift_ext. intros k Hk. apply csum_ext. intros i Hi. f_equal. apply ft_ext.
    intros q Hq. apply HGH; [lia|assumption].
  Qed.
  Lemma fl_div_B : exists d, div g 3 (magnetic_field u o k0 F) = Ok d /\ agree s d (fun _ => 0).
  Proof.
    destruct (div_curl g (fun c p => / (Ci * RtoC (k0 * c_light u)) * E c p) (proj1 Hs) fl_n) as (d & Hd & H0).
    destruct (div_vagree 3 _ (magnetic_field u o k0 F) d (vagree_trans _ _ _ _ _ (curl_scal g E (/ (Ci * RtoC (k0 * c_light u))) fl_n) (vagree_sym _ _ _ _ fl_B)) fl_n Hd) as (d' & Hd' & Ha).
    exists d'. split; [assumption|]. intros p Hp. rewrite <- (Ha p Hp). apply H0. assumption.
  Qed.
  (** The current that drives the fields. *)
  Definition true_current : vfield := fun c p => source_distribution o c p / (Ci * RtoC (k0 * c_light u) * RtoC (mu_0 u)).
  Lemma fl_ampere : ampere u g k0 (magnetizing_field u o k0 F) (displacement_field u o k0 F) true_current.
  Proof.
    intros c p Hc Hp. destruct (u_neq u g k0 Hu Hs) as (H1 & H2 & H3 & H4). pose proof Ci_neq.
    unfold displacement_field. rewrite fl_curl by assumption. unfold true_current, source_distribution, angular_frequency. rewrite !RtoC_mult.
    set (X := curl g 3 (magnetizing_field u o k0 F) c p).
    transitivity (- (Ci * Ci) * X + (1 + Ci * Ci) * (o_source o c p * (RtoC (o_beta o) / Ci * im (o_alpha o)) / (Ci * (RtoC k0 * RtoC (c_light u)) * RtoC (mu_0 u)))).
    - rewrite Ci_sq. ring.
    - field. auto.
  Qed.
  Lemma ampere_current H D J J' : ampere u g k0 H D J -> ampere u g k0 H D J' -> vagree 3 s J J'.
  Proof.
    intros H1 H2 c p Hc Hp. specialize (H1 c p Hc Hp). specialize (H2 c p Hc Hp). rewrite H1 in H2.
    transitivity (J c p - Ci * RtoC (k0 * c_light u) * D c p + Ci * RtoC (k0 * c_light u) * D c p); [ring|]. rewrite H2. ring.
  Qed.
  Lemma ampere_displacement H D D' J : ampere u g k0 H D J -> ampere u g k0 H D' J -> vagree 3 s D D'.
  Proof.
    intros HA HA' c p Hc Hp. destruct (u_neq u g k0 Hu Hs) as (H1 & H2 & H3 & H4). pose proof Ci_neq.
    specialize (HA c p Hc Hp). specialize (HA' c p Hc Hp). rewrite HA in HA'. 
    set (w := Ci * RtoC (k0 * c_light u)) in *. assert (w <> 0) by (unfold w; rewrite RtoC_mult; repeat apply Cmult_neq_0; assumption).
    transitivity ((J c p - (J c p - w * D c p)) / w); [field; assumption|]. rewrite HA'. field. assumption.
  Qed.
  Lemma current_opposite c p : current_density u o k0 c p = - true_current c p.
  Proof.
    destruct (u_neq u g k0 Hu Hs) as (H1 & H2 & H3 & H4). pose proof Ci_neq. unfold current_density, true_current, angular_frequency.
    assert (- Ci <> 0) by (intros E0; apply (f_equal snd) in E0; cbn in E0; lra). rewrite RtoC_mult. field. auto 6.
  Qed.
  Lemma ampere_reported : ampere u g k0 (magnetizing_field u o k0 F) (displacement_field u o k0 F) (current_density u o k0) ->
    vagree 3 s (source_distribution o) (fun _ _ => 0).
  Proof.
    intros HA c p Hc Hp. destruct (u_neq u g k0 Hu Hs) as (H1 & H2 & H3 & H4). pose proof Ci_neq.
    pose proof (ampere_current _ _ _ _ fl_ampere HA c p Hc Hp) as H5. rewrite current_opposite in H5.
    assert (true_current c p = 0) as H6.
    { exact (opposite_zero _ H5). }
    unfold true_current in H6. set (w := Ci * RtoC (k0 * c_light u) * RtoC (mu_0 u)) in *.
    assert (w <> 0) by (unfold w; rewrite RtoC_mult; repeat apply Cmult_neq_0; assumption).
    transitivity (source_distribution o c p / w * w); [field; assumption|]. rewrite H6. ring.
  Qed.
End Fields.

Section NonMagneticFields.
  Variables (u : si) (g : raster) (k0 : R) (alpha : C) (beta : R) (eps : tensor) (m : R) (S F : vfield).
  Hypothesis Hu : physical u.
  Hypothesis Hs : solvable true g k0.
  Hypothesis Ha : snd alpha <> 0%R.
  Hypothesis Hb : beta <> 0%R.
  Hypothesis Hm : m <> 0%R.
  Let o := prepare (scaled k0 g) true false alpha beta eps tzero tzero (tuniform (RtoC m)) S.
  Let s := rshape g.
  Let E := electric_field k0 F.
  Lemma nf_H : vagree 3 s (magnetizing_field u o k0 F) (fun c p => magnetic_field u o k0 F c p / (RtoC (mu_0 u) * RtoC m)).
  Proof.
    intros c p Hc Hp. destruct (u_neq u g k0 Hu Hs) as (H1 & H2 & H3 & H4). pose proof Ci_neq. assert (RtoC m <> 0) by auto with cneq.
    assert (RtoC beta <> 0) by auto with cneq. assert (im alpha <> 0) by auto with cneq.
    unfold o. rewrite prepare_precondition by assumption. unfold magnetizing_field, magnetic_field.
    cbn [o_magnetic o_beta o_alpha o_grid o_chiHH precondition tuniform tinv tscale tadd tfirst]. change (vector_length _) with 3%nat.
    fold E. set (X := curl (scaled k0 g) 3 E c p).
    transitivity ((- Ci * (1 + Ci * Ci) * beta + Ci * Ci * Ci * / RtoC m) / (RtoC (mu_0 u) * RtoC (c_light u)) * X); [field; auto|].
    transitivity ((- Ci * (1 + Ci * Ci) * beta + (Ci * Ci) * (Ci * Ci) * / Ci * / RtoC m) / (RtoC (mu_0 u) * RtoC (c_light u)) * X); [field; auto|].
    rewrite Ci_sq. field. auto.
  Qed.
  (** At a solution of the wave equation. *)
  Lemma nf_D : beta = (/ m)%R -> wave_equation true g k0 beta eps E S ->
    vagree 3 s (displacement_field u o k0 F) (fun c p => RtoC (epsilon_0 u) * tapply eps E c p).
  Proof.
    intros Hbm HW. destruct (u_neq u g k0 Hu Hs) as (H1 & H2 & H3 & H4). pose proof Ci_neq. assert (RtoC m <> 0) by auto with cneq.
    assert (rndim g <= 3)%nat as Hn by (destruct Hs as (_ & _ & Hn); auto).
    assert (im alpha <> 0) by auto with cneq. assert (RtoC beta <> 0) by auto with cneq.
    assert (o_grid o = scaled k0 g) as Hg by reflexivity. assert (o_vectorial o = true) as Hv by reflexivity.
    apply (ampere_displacement u g k0 Hu Hs (magnetizing_field u o k0 F) _ _ (true_current u k0 o)); [exact (fl_ampere u g k0 o F Hu Hs Hg Hv)|].
    intros c p Hc Hp. 
    assert (vagree 3 s (magnetizing_field u o k0 F) (fun c p => / (RtoC (mu_0 u) * RtoC m * (Ci * RtoC (k0 * c_light u))) * curl g 3 E c p)) as HH.
    { intros d q Hd Hq. rewrite nf_H by assumption. rewrite (fl_B u g k0 o F Hu Hs Hg Hv) by assumption. fold E. rewrite RtoC_mult. field. auto. }
    rewrite (curl_vagree g _ _ Hn HH c p Hc Hp), curl_scal by assumption.
    unfold true_current. unfold o. rewrite prepare_precondition by assumption. unfold source_distribution. cbn [o_source o_beta o_alpha precondition].
    rewrite <- (HW c p Hc Hp). cbn [curl_curl_op]. unfold curl_curl_op. rewrite (u_eps u g k0 Hu Hs).
    assert (RtoC m = / RtoC beta) as ->. { rewrite Hbm, RtoC_inv by exact Hm. symmetry.
      field. split; [assumption|]. apply (RtoC_neq 1). lra. }
    rewrite !RtoC_mult.
    transitivity (beta * (curl g 3 (curl g 3 E) c p) / (Ci * RtoC k0 * RtoC (c_light u) * RtoC (mu_0 u))); [field; repeat split; auto; apply (RtoC_neq 1); lra|].
    transitivity (beta * (curl g 3 (curl g 3 E) c p) / (Ci * RtoC k0 * RtoC (c_light u) * RtoC (mu_0 u)) - (1 + Ci * Ci) * RtoC k0 * tapply eps E c p / (Ci * RtoC (c_light u) * RtoC (mu_0 u))).
    - rewrite Ci_sq. unfold Cdiv. ring.
    - field; repeat split; auto; apply (RtoC_neq 1); lra.
  Qed.
End NonMagneticFields.
