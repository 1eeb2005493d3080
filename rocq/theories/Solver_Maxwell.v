(** Magnetic and bi-anisotropic media: the equation that a fixed point of the iteration solves, and its relation to
    Maxwell's equations. *)
From Coq Require Import Reals Lra Lia List Arith Bool.
Require Import Verif.Base Verif.Cplx Verif.CSum Verif.Field Verif.Fourier_Model Verif.Fourier_Spec Verif.Fourier_Proofs.
Require Import Verif.Vec_Model Verif.Vec_Spec Verif.Vec_Proofs Verif.Solver_Model Verif.Solver_Spec Verif.Solver_Proofs.
Require Import Verif.Derived_Model Verif.Derived_Spec Verif.Derived_Tensor.
Import ListNotations.
Local Open Scope R_scope.
Local Open Scope C_scope.

(** curl nu curl E + i k0 curl (xi nu E) - i k0 nu zeta curl E - k0^2 (eps E - xi nu zeta E). *)
Definition coded (g : raster) (k0 : R) (eps xi zeta nu : tensor) (E : vfield) : vfield := fun c p =>
  curl g 3 (tapply nu (curl g 3 E)) c p + Ci * RtoC k0 * curl g 3 (tapply xi (tapply nu E)) c p
  - Ci * RtoC k0 * tapply nu (tapply zeta (curl g 3 E)) c p
  - RtoC (k0 * k0) * (tapply eps E c p - tapply xi (tapply nu (tapply zeta E)) c p).

Section Magnetic.
  Variables (g : raster) (k0 : R) (alpha : C) (beta : R) (eps xi zeta mu nu : tensor) (S : vfield).
  Hypothesis Hs : solvable true g k0.
  Hypothesis Ha : snd alpha <> 0%R.
  Hypothesis Hb : beta <> 0%R.
  Hypothesis Hnu : inverse_of (rshape g) mu nu.
  Let o := prepare (scaled k0 g) true true alpha beta eps xi zeta mu S.
  Let s := rshape g.

  Lemma mg_fine : fine o.
  Proof.
    destruct Hs as (Hg & Hk & Hn). unfold o, fine. cbn [o_grid o_alpha o_vectorial prepare precondition update_operators]. repeat split; auto.
    - cbn. rewrite map_length. apply Hg.
    - cbn. apply Hg.
    - apply scaled_proper; assumption.
  Qed.
  Lemma mg_source c p : o_source o c p = S c p * (Ci / im alpha / RtoC beta).
  Proof. unfold o. rewrite prepare_precondition by assumption. reflexivity. Qed.

  (** The part of the operator that does not depend on alpha. *)
  Definition medium_op (F : vfield) : vfield := fun c p =>
    (tapply eps F c p - tapply xi (tapply nu (tapply zeta F)) c p
     + Ci / RtoC k0 * tapply nu (tapply zeta (curl g 3 F)) c p
     - Ci / RtoC k0 * curl g 3 (tapply xi (tapply nu F)) c p
     - curl g 3 (tapply nu (curl g 3 F)) c p / RtoC (k0 * k0)) / RtoC beta
    + curl g 3 (curl g 3 F) c p / RtoC (k0 * k0).

  Lemma mg_chi F : vagree 3 s (chi_op o F) (fun c p => Ci / im alpha * (medium_op F c p - alpha * F c p)).
  Proof.
    destruct Hs as (Hg & Hk & Hn). specialize (Hn eq_refl). assert (RtoC k0 <> 0) by auto with cneq. assert (RtoC beta <> 0) by auto with cneq.
    assert (im alpha <> 0) by auto with cneq.
    unfold o. rewrite prepare_precondition by assumption. unfold chi_op.
    cbn -[tapply tmul tsub tscale tshift tinv curl im RtoC csum medium_op]. change (vector_length _) with 3%nat.
    set (K := Ci / im alpha).
    assert (vagree 3 s (curl (scaled k0 g) 3 F) (fun c p => / RtoC k0 * curl g 3 F c p)) as HD.
    { intros c p Hc Hp. rewrite (curl_scaled k0 g F Hk Hg Hn c p Hc Hp). unfold Cdiv. ring. }
    assert (forall G, vagree 3 s (tapply (tmul xi (tinv mu)) G) (tapply xi (tapply nu G))) as Hxn.
    { intros G c p Hc Hp. rewrite tapply_tmul. apply (tapply_ext3 s); try assumption. apply tinv_inverse. assumption. }
    assert (forall G, vagree 3 s (tapply (tmul (tinv mu) zeta) G) (tapply nu (tapply zeta G))) as Hnz.
    { intros G c p Hc Hp. rewrite tapply_tmul. apply (tinv_inverse s mu nu); assumption. }
    intros c p Hc Hp. cbn beta.
    (* The argument of the outer curl *)
    assert (vagree 3 s
      (fun c p => tapply (tscale (K / RtoC beta) (tscale (- Ci) (tmul xi (tinv mu)))) F c p +
                  tapply (tscale K (tsub (TScalar (fun _ => 1)) (tscale (1 / RtoC beta) (tinv mu)))) (curl (scaled k0 g) 3 F) c p)
      (fun c p => K / RtoC beta * - Ci * tapply xi (tapply nu F) c p +
                  (K / RtoC k0 * curl g 3 F c p + - (K / RtoC k0 / RtoC beta) * tapply nu (curl g 3 F) c p))) as HH.
    { intros d q Hd Hq. rewrite !tapply_tscale, Hxn by assumption. rewrite tapply_tsub by assumption. rewrite tapply_tscale.
      rewrite (tapply_ext3 s _ _ _ HD d q Hd Hq), tapply_scal.
      replace (tapply (tinv mu) (curl (scaled k0 g) 3 F) d q) with (/ RtoC k0 * tapply nu (curl g 3 F) d q).
      - cbn [tapply]. field. auto.
      - rewrite <- tapply_scal. rewrite <- (tapply_ext3 s _ _ _ HD d q Hd Hq). symmetry. apply (tinv_inverse s mu nu); assumption. }
    rewrite (curl_vagree (scaled k0 g) _ _ Hn HH c p Hc Hp).
    rewrite (curl_scaled k0 g _ Hk Hg Hn c p Hc Hp). rewrite curl_plus, curl_plus, !curl_scal by assumption.
    rewrite (tapply_tshift 3), !tapply_tscale by lia. rewrite tapply_tsub by assumption.
    rewrite (Hnz (curl (scaled k0 g) 3 F) c p Hc Hp).
    rewrite (tapply_tmul xi (tscale (- Ci) (tscale Ci (tmul (tinv mu) zeta)))).
    assert (tapply xi (tapply (tscale (- Ci) (tscale Ci (tmul (tinv mu) zeta))) F) c p = tapply xi (tapply nu (tapply zeta F)) c p) as ->.
    { apply (tapply_ext3 s); try assumption. intros d q Hd Hq. rewrite !tapply_tscale, Hnz by assumption.
      transitivity (- (Ci * Ci) * tapply nu (tapply zeta F) d q); [|rewrite Ci_sq]; ring. }
    assert (tapply nu (tapply zeta (curl (scaled k0 g) 3 F)) c p = / RtoC k0 * tapply nu (tapply zeta (curl g 3 F)) c p) as ->.
    { rewrite <- tapply_scal. apply (tapply_ext3 s); try assumption. intros d q Hd Hq. rewrite <- tapply_scal.
      apply (tapply_ext3 s); assumption. }
    unfold medium_op, K. rewrite RtoC_mult. field. auto.
  Qed.

  Lemma mg_ndim : (rndim g <= 3)%nat.
  Proof. destruct Hs as (_ & _ & Hn). auto. Qed.
  Lemma medium_scal a F : vagree 3 s (medium_op (fun c p => a * F c p)) (fun c p => a * medium_op F c p).
  Proof.
    pose proof mg_ndim as Hn. intros c p Hc Hp. unfold medium_op.
    assert (vagree 3 s (curl g 3 (fun c p => a * F c p)) (fun c p => a * curl g 3 F c p)) as HD by (apply curl_scal; assumption).
    assert (forall t G H, vagree 3 s G (fun c p => a * H c p) -> vagree 3 s (tapply t G) (fun c p => a * tapply t H c p)) as Ht.
    { intros t G H0 HG d q Hd Hq. rewrite <- tapply_scal. apply (tapply_ext3 s); assumption. }
    assert (forall G H, vagree 3 s G (fun c p => a * H c p) -> vagree 3 s (curl g 3 G) (fun c p => a * curl g 3 H c p)) as Hcu.
    { intros G H0 HG d q Hd Hq. rewrite <- (curl_scal g) by assumption. apply curl_vagree; assumption. }
    assert (vagree 3 s (fun c p => a * F c p) (fun c p => a * F c p)) as HF by (intros d q _ _; reflexivity).
    rewrite (Ht eps _ _ HF c p Hc Hp), (Ht xi _ _ (Ht nu _ _ (Ht zeta _ _ HF)) c p Hc Hp).
    rewrite (Ht nu _ _ (Ht zeta _ _ HD) c p Hc Hp), (Hcu _ _ (Ht xi _ _ (Ht nu _ _ HF)) c p Hc Hp).
    rewrite (Hcu _ _ (Ht nu _ _ HD) c p Hc Hp), (Hcu _ _ HD c p Hc Hp). unfold Cdiv. ring.
  Qed.

  Variable E : vfield.
  Let field := fun c p => RtoC (k0 * k0) * E c p.

  Lemma mg_balance : vagree 3 s (fun c p => chi_op o field c p + o_source o c p) (ginv o field) <-> vagree 3 s (coded g k0 eps xi zeta nu E) S.
  Proof.
    pose proof mg_ndim as Hn. destruct Hs as (Hg & Hk & _). assert (RtoC k0 <> 0) by auto with cneq. assert (RtoC beta <> 0) by auto with cneq.
    assert (im alpha <> 0) by auto with cneq. pose proof Ci_neq.
    assert (forall c p, (c < 3)%nat -> inside s p ->
      ginv o field c p = Ci / im alpha * (curl g 3 (curl g 3 E) c p - alpha * (RtoC (k0 * k0) * E c p))) as HG.
    { intros c p Hc Hp. rewrite ginv_real; [|apply mg_fine|exact Hc|exact Hp].
      change (o_alpha o) with alpha. change (o_grid o) with (scaled k0 g). change (o_vectorial o) with true. do 2 f_equal.
      rewrite (curl_curl_scaled true k0 g field 3) by (assumption || reflexivity || auto).
      unfold field. rewrite (curl_curl_scal true g E (RtoC (k0 * k0)) 3) by (assumption || reflexivity || auto). unfold curl_curl_op.
      rewrite RtoC_mult. field. assumption. }
    assert (forall c p, (c < 3)%nat -> inside s p ->
      chi_op o field c p + o_source o c p - ginv o field c p = Ci / im alpha / RtoC beta * (S c p - coded g k0 eps xi zeta nu E c p)) as Hd.
    { intros c p Hc Hp. rewrite HG, mg_source, mg_chi by assumption. unfold field. rewrite medium_scal by assumption.
      unfold medium_op, coded. rewrite !RtoC_mult. field. auto. }
    split; intros H' c p Hc Hp; specialize (H' c p Hc Hp); specialize (Hd c p Hc Hp).
    - rewrite H' in Hd. assert (S c p - coded g k0 eps xi zeta nu E c p = 0) as H3.
      { transitivity (RtoC beta * im alpha / Ci * (Ci / im alpha / RtoC beta * (S c p - coded g k0 eps xi zeta nu E c p))); [field; auto|].
        rewrite <- Hd. ring. }
      transitivity (S c p - (S c p - coded g k0 eps xi zeta nu E c p)); [ring|]. rewrite H3. ring.
    - rewrite H' in Hd. transitivity (chi_op o field c p + o_source o c p - ginv o field c p + ginv o field c p); [ring|]. rewrite Hd. ring.
  Qed.

  Lemma mg_chi_zero d : vagree 3 s d (fun _ _ => 0) -> vagree 3 s (chi_op o d) (fun _ _ => 0).
  Proof.
    intros Hd. pose proof mg_ndim as Hn. intros c p Hc Hp. rewrite mg_chi by assumption.
    assert (forall t G, vagree 3 s G (fun _ _ => 0) -> vagree 3 s (tapply t G) (fun _ _ => 0)) as Ht.
    { intros t G HG e q He Hq. rewrite <- (tapply_zero t e q). apply (tapply_ext3 s); assumption. }
    assert (forall G, vagree 3 s G (fun _ _ => 0) -> vagree 3 s (curl g 3 G) (fun _ _ => 0)) as Hcu.
    { intros G HG e q He Hq. rewrite <- (curl_zero g Hn e q He Hq). apply curl_vagree; assumption. }
    unfold medium_op. rewrite (Ht eps _ Hd c p Hc Hp), (Ht xi _ (Ht nu _ (Ht zeta _ Hd)) c p Hc Hp).
    rewrite (Ht nu _ (Ht zeta _ (Hcu _ Hd)) c p Hc Hp), (Hcu _ (Ht xi _ (Ht nu _ Hd)) c p Hc Hp).
    rewrite (Hcu _ (Ht nu _ (Hcu _ Hd)) c p Hc Hp), (Hcu _ (Hcu _ Hd) c p Hc Hp), (Hd c p Hc Hp). unfold Cdiv. ring.
  Qed.

  Lemma mg_fixed_of_coded : vagree 3 s (coded g k0 eps xi zeta nu E) S -> vagree 3 s (update o field) (fun _ _ => 0).
  Proof.
    intros H. apply mg_balance in H. apply (proj2 (green_fixed o field mg_fine)) in H.
    unfold update. apply mg_chi_zero. intros c p Hc Hp. rewrite (H c p Hc Hp). ring.
  Qed.
  Lemma mg_coded_of_fixed : operator_injective 3 s (chi_op o) -> vagree 3 s (update o field) (fun _ _ => 0) ->
    vagree 3 s (coded g k0 eps xi zeta nu E) S.
  Proof.
    intros Hi H. apply mg_balance. apply (proj1 (green_fixed o field mg_fine)). apply Hi in H.
    intros c p Hc Hp. specialize (H c p Hc Hp). cbn beta in H.
    transitivity (green_op o (fun c p => chi_op o field c p + o_source o c p) c p - field c p + field c p); [ring|]. rewrite H. ring.
  Qed.
End Magnetic.

(** ** Maxwell's equations *)
Section Maxwell.
  Variables (u : si) (g : raster) (k0 : R) (eps xi zeta mu nu : tensor).
  Hypothesis Hu : physical u.
  Hypothesis Hs : solvable true g k0.
  Hypothesis Hnu : inverse_of (rshape g) mu nu.
  Let s := rshape g.

  (** The magnetizing field that Faraday's law demands. *)
  Definition faraday_H (E : vfield) : vfield := fun c p =>
    / (RtoC (mu_0 u) * RtoC (c_light u)) * (- (Ci / RtoC k0) * tapply nu (curl g 3 E) c p + - (1) * tapply nu (tapply zeta E) c p).

  Lemma u_neq : RtoC (c_light u) <> 0 /\ RtoC (mu_0 u) <> 0 /\ RtoC (epsilon_0 u) <> 0 /\ RtoC k0 <> 0.
  Proof. destruct Hu as (H1 & H2 & H3 & _), Hs as (_ & Hk & _). repeat split; apply RtoC_neq; lra || assumption. Qed.
  Lemma u_eps : RtoC (epsilon_0 u) = / (RtoC (c_light u) * RtoC (c_light u) * RtoC (mu_0 u)).
  Proof.
    destruct u_neq as (H1 & H2 & H3 & H4). destruct Hu as (_ & _ & _ & H). apply (f_equal RtoC) in H. rewrite !RtoC_mult in H.
    transitivity (RtoC (c_light u) * RtoC (c_light u) * RtoC (mu_0 u) * RtoC (epsilon_0 u) / (RtoC (c_light u) * RtoC (c_light u) * RtoC (mu_0 u))); [field; auto|].
    rewrite H. field. auto.
  Qed.

  Lemma faraday_unique E H : faraday u g k0 E (constitutive_B u zeta mu E H) <-> vagree 3 s H (faraday_H E).
  Proof.
    destruct u_neq as (H1 & H2 & H3 & H4). pose proof Ci_neq. split; intros HF.
    - (* apply nu to both sides *)
      assert (vagree 3 s (tapply nu (curl g 3 E)) (fun c p => Ci * RtoC k0 * tapply nu (tapply zeta E) c p + Ci * RtoC (k0 * c_light u) * RtoC (mu_0 u) * H c p)) as H5.
      { intros c p Hc Hp. transitivity (tapply nu (fun c p => Ci * RtoC k0 * tapply zeta E c p + Ci * RtoC (k0 * c_light u) * RtoC (mu_0 u) * tapply mu H c p) c p).
        - apply (tapply_ext3 s); try assumption. intros d q Hd Hq. rewrite (HF d q Hd Hq). unfold constitutive_B. rewrite RtoC_mult. field. assumption.
        - rewrite tapply_plus3, !tapply_scal. rewrite (proj2 (Hnu H) c p Hc Hp). reflexivity. }
      intros c p Hc Hp. unfold faraday_H. rewrite H5 by assumption. rewrite RtoC_mult.
      transitivity (- (Ci * Ci) * H c p - (1 + Ci * Ci) * tapply nu (tapply zeta E) c p / (RtoC (mu_0 u) * RtoC (c_light u))); [rewrite Ci_sq; field; auto|field; auto].
    - intros c p Hc Hp. unfold constitutive_B. rewrite (tapply_ext3 s mu _ _ HF c p Hc Hp). unfold faraday_H. rewrite tapply_scal, tapply_plus3, !tapply_scal.
      rewrite (proj1 (Hnu (curl g 3 E)) c p Hc Hp), (proj1 (Hnu (tapply zeta E)) c p Hc Hp). rewrite RtoC_mult.
      transitivity (- (Ci * Ci) * curl g 3 E c p); [rewrite Ci_sq; ring|field; auto].
  Qed.

  (** Maxwell's equations as one equation of second order. *)
  Definition second_order (E : vfield) : vfield := fun c p =>
    curl g 3 (tapply nu (curl g 3 E)) c p - Ci * RtoC k0 * curl g 3 (tapply nu (tapply zeta E)) c p
    + Ci * RtoC k0 * tapply xi (tapply nu (curl g 3 E)) c p
    - RtoC (k0 * k0) * (tapply eps E c p - tapply xi (tapply nu (tapply zeta E)) c p).

  Lemma ampere_second_order E J : ampere u g k0 (faraday_H E) (constitutive_D u eps xi E (faraday_H E)) J <->
    vagree 3 s (second_order E) (driving u k0 J).
  Proof.
    destruct u_neq as (H1 & H2 & H3 & H4). pose proof Ci_neq. assert (rndim g <= 3)%nat as Hn by (destruct Hs as (_ & _ & Hn); auto).
    assert (forall c p, (c < 3)%nat -> inside s p ->
      Ci * RtoC (k0 * c_light u) * RtoC (mu_0 u) * (curl g 3 (faraday_H E) c p + Ci * RtoC (k0 * c_light u) * constitutive_D u eps xi E (faraday_H E) c p)
      = second_order E c p) as Hd.
    { intros c p Hc Hp. unfold constitutive_D. unfold faraday_H at 1 2. rewrite curl_scal, curl_plus, !curl_scal by assumption.
      rewrite tapply_scal, tapply_plus3, !tapply_scal. unfold second_order. rewrite u_eps, RtoC_mult.
      transitivity (- (Ci * Ci) * curl g 3 (tapply nu (curl g 3 E)) c p - Ci * RtoC k0 * curl g 3 (tapply nu (tapply zeta E)) c p
        + - (Ci * Ci) * Ci * RtoC k0 * tapply xi (tapply nu (curl g 3 E)) c p
        - - (Ci * Ci) * RtoC (k0 * k0) * (tapply eps E c p - tapply xi (tapply nu (tapply zeta E)) c p)); [rewrite RtoC_mult; field; auto|].
      rewrite Ci_sq. ring. }
    split; intros H5 c p Hc Hp; specialize (H5 c p Hc Hp); specialize (Hd c p Hc Hp).
    - rewrite <- Hd, H5. unfold driving. ring.
    - rewrite <- Hd in H5. unfold driving in H5.
      transitivity (Ci * RtoC (k0 * c_light u) * RtoC (mu_0 u) * (curl g 3 (faraday_H E) c p + Ci * RtoC (k0 * c_light u) * constitutive_D u eps xi E (faraday_H E) c p)
        / (Ci * RtoC (k0 * c_light u) * RtoC (mu_0 u)) - Ci * RtoC (k0 * c_light u) * constitutive_D u eps xi E (faraday_H E) c p).
      + rewrite RtoC_mult. field. auto.
      + rewrite H5, RtoC_mult. field. auto.
  Qed.

  Lemma ampere_ext H H' D D' J : vagree 3 s H H' -> vagree 3 s D D' -> ampere u g k0 H D J -> ampere u g k0 H' D' J.
  Proof.
    intros HH HD HA c p Hc Hp. assert (rndim g <= 3)%nat as Hn by (destruct Hs as (_ & _ & Hn); auto).
    rewrite <- (curl_vagree g _ _ Hn HH c p Hc Hp), <- (HD c p Hc Hp). apply HA; assumption.
  Qed.
  Lemma constitutive_D_ext E H H' : vagree 3 s H H' -> vagree 3 s (constitutive_D u eps xi E H) (constitutive_D u eps xi E H').
  Proof. intros HH c p Hc Hp. unfold constitutive_D. rewrite (tapply_ext3 s xi _ _ HH c p Hc Hp). reflexivity. Qed.

  Lemma maxwell_second_order E H J : maxwell u g k0 eps xi zeta mu E H J <-> vagree 3 s H (faraday_H E) /\ vagree 3 s (second_order E) (driving u k0 J).
  Proof.
    unfold maxwell. rewrite faraday_unique, <- ampere_second_order. split; intros (HH & HA); split; try assumption; revert HA; apply ampere_ext.
    - assumption.
    - apply constitutive_D_ext. assumption.
    - apply vagree_sym. assumption.
    - apply constitutive_D_ext, vagree_sym. assumption.
  Qed.

  Lemma second_order_coded E : vagree 3 s (fun c p => coded g k0 eps xi zeta nu E c p - second_order E c p)
    (fun c p => Ci * RtoC k0 * (curl g 3 (coupling xi zeta nu E) c p - coupling xi zeta nu (curl g 3 E) c p)).
  Proof.
    intros c p Hc Hp. assert (rndim g <= 3)%nat as Hn by (destruct Hs as (_ & _ & Hn); auto).
    unfold coded, second_order, coupling. rewrite curl_plus by assumption. ring.
  Qed.
End Maxwell.
