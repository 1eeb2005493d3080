(** Rounding errors and corrections for magnetic and chiral media. *)
From Coq Require Import Reals Lra Lia List Arith Bool.
Require Import Verif.Base Verif.Cplx Verif.CSum Verif.Field Verif.Fourier_Model Verif.Fourier_Spec Verif.Vec_Model Verif.Vec_Spec Verif.Solver_Model Verif.Solver_Spec.
Require Import Verif.Solver_Proofs Verif.Magnetic_Norm Verif.Solver_Choice Verif.Robust_Proofs Verif.Derived_Model Verif.Derived_Spec Verif.Choice_Model Verif.Magnetic_Spec Verif.Magnetic_Proofs.
Require Import Verif.Symmetry_Spec Verif.Maxwell_Spec Verif.Maxwell_Proofs Verif.Robust_Spec.
Import ListNotations.
Local Open Scope R_scope.
Local Open Scope C_scope.

(** Any step that reduces the error. *)
Section Step.
  Variables (s : list nat) (k0 : R) (step : vfield -> vfield) (E : vfield) (r : R).
  Hypothesis Hk : k0 <> 0%R.
  Hypothesis Hr : (0 <= r)%R.
  Hypothesis Hstep : forall F, (error 3 s k0 (step F) E <= r * error 3 s k0 F E)%R.
  Variables (d0 d1 : R) (X : nat -> vfield).
  Hypothesis Hd0 : (0 <= d0)%R.
  Hypothesis Hd1 : (0 <= d1)%R.
  Hypothesis HX : perturbed 3 s k0 (fun _ => step) d0 d1 X.
  Lemma rb_step m : (error 3 s k0 (X (Datatypes.S m)) E <= (r + d1) * error 3 s k0 (X m) E + (d0 + d1 * size 3 s E))%R.
  Proof.
    pose proof (HX m) as H1. pose proof (Hstep (X m)) as H. unfold error in *.
    pose proof (size_triangle 3 s (electric_field k0 (X (Datatypes.S m))) (electric_field k0 (step (X m))) E) as H2.
    pose proof (size_split 3 s (electric_field k0 (X m)) E) as H3. nra.
  Qed.
  Lemma rb_bounded : (r + d1 < 1)%R -> forall m, (error 3 s k0 (X m) E <= (r + d1) ^ m * error 3 s k0 (X 0%nat) E + (d0 + d1 * size 3 s E) / (1 - (r + d1)))%R.
  Proof.
    intros H. apply (bounded_growth (fun m => error 3 s k0 (X m) E)); [lra| |exact rb_step]. pose proof (size_nonneg 3 s E). nra.
  Qed.
End Step.

Lemma rb_linear s k0 (step : vfield -> vfield) (E : vfield) d0 d1 X : (forall F, (error 3 s k0 (step F) E <= error 3 s k0 F E)%R) -> (0 <= d0)%R -> (0 <= d1)%R -> perturbed 3 s k0 (fun _ => step) d0 d1 X ->
  forall m, (error 3 s k0 (X m) E <= (1 + d1) ^ m * (error 3 s k0 (X 0%nat) E + INR m * (d0 + d1 * size 3 s E)))%R.
Proof.
  intros H H0 H1 HX. apply (linear_growth (fun m => error 3 s k0 (X m) E)); [assumption| | |].
  - pose proof (size_nonneg 3 s E). nra.
  - intros m. apply error_nonneg.
  - intros m. apply (rb_step s k0 step E 1 ltac:(intros F; rewrite Rmult_1_l; apply H) d0 d1 X H1 HX).
Qed.
Lemma rb_root s k0 (F G : vfield) E q : (0 <= q)%R -> (vnorm2 3 s (fun c p => electric_field k0 G c p - E c p)%C <= q * vnorm2 3 s (fun c p => electric_field k0 F c p - E c p)%C)%R ->
  (error 3 s k0 G E <= sqrt q * error 3 s k0 F E)%R.
Proof. intros Hq H. unfold error, size. rewrite <- sqrt_mult_alt by exact Hq. apply sqrt_le_1_alt. exact H. Qed.
Lemma rb_update k0 o F c p : k0 <> 0%R -> electric_field k0 (update o F) c p = electric_field k0 (next_field o F) c p - electric_field k0 F c p.
Proof. intros Hk. unfold electric_field, next_field. field. apply RtoC_neq, Rmult_integral_contrapositive. split; assumption. Qed.
Lemma rb_correction s k0 o F E r : k0 <> 0%R -> (error 3 s k0 (next_field o F) E <= r * error 3 s k0 F E)%R ->
  ((1 - r) * error 3 s k0 F E <= size 3 s (electric_field k0 (update o F)) <= (1 + r) * error 3 s k0 F E)%R.
Proof.
  intros Hk H. unfold error in *. set (N := electric_field k0 (next_field o F)) in *. set (G := electric_field k0 F) in *. split.
  - pose proof (size_triangle 3 s G N E) as H1.
    assert (size 3 s (electric_field k0 (update o F)) = size 3 s (fun c p => G c p - N c p)%C) as ->; [|lra].
    change (vnorm 3 s (electric_field k0 (update o F)) = vnorm 3 s (fun c p => G c p - N c p)%C).
    rewrite (vnorm_ext 3 s _ (fun c p => RtoC (-1) * (G c p - N c p))%C).
    + rewrite vnorm_scal, Cmod_R, Rabs_left by lra. ring.
    + intros c p _ _. rewrite rb_update by exact Hk. fold N G. replace (RtoC (-1)) with (- RtoC 1)%C by (unfold RtoC, Copp; cbn; f_equal; ring). ring.
  - pose proof (size_minus 3 s (fun c p => N c p - E c p)%C (fun c p => G c p - E c p)%C) as H1.
    change (vnorm 3 s (electric_field k0 (update o F)) <= (1 + r) * size 3 s (fun c p => G c p - E c p)%C)%R.
    rewrite (vnorm_ext 3 s _ (fun c p => (N c p - E c p) - (G c p - E c p))%C)
      by (intros c p _ _; rewrite rb_update by exact Hk; fold N G; ring). unfold size in *. unfold vnorm. cbv beta in *. lra.
Qed.

Section Magnetic.
  Variables (eps : R) (u : si) (g : raster) (k0 : R) (epsilon xi zeta mu nu : tensor) (settled : R * R) (thick : option R) (J : vfield) (kappa : C).
  Hypothesis He : (0 < eps)%R.
  Hypothesis He1 : (2 * eps <= 1)%R.
  Hypothesis Hu : physical u.
  Hypothesis Hs : solvable true g k0.
  Hypothesis Hk : (0 < k0)%R.
  Hypothesis Hnu : inverse_of (rshape g) mu nu.
  Hypothesis Hm : is_magnetic (rshape g) xi zeta mu = true.
  Hypothesis Hprec : (20 * sqrt (2 * sqrt eps) * ((1 + highest_frequency g k0) * (1 + highest_frequency g k0)) < snd settled * snd settled)%R.
  Hypothesis Hcouple : forall G, vagree 3 (rshape g) (coupling xi zeta nu G) (fun c p => kappa * G c p).
  Let o := construct eps g k0 true epsilon xi zeta mu settled thick (driving u k0 J).
  Let s := rshape g.
  Lemma rb_lossy loss : (0 < loss)%R -> dissipates (rshape g) epsilon xi zeta mu loss ->
    exists (E H : vfield) r, (0 <= r < 1)%R /\ maxwell u g k0 epsilon xi zeta mu E H J /\ (forall E' H', maxwell u g k0 epsilon xi zeta mu E' H' J -> vagree 3 s E' E) /\
      (forall F, ((1 - r) * error 3 s k0 F E <= size 3 s (electric_field k0 (update o F)) <= (1 + r) * error 3 s k0 F E)%R) /\
      (forall d0 d1 X, (0 <= d0)%R -> (0 <= d1)%R -> (r + d1 < 1)%R -> perturbed 3 s k0 (fun _ => next_field o) d0 d1 X ->
       forall m, (error 3 s k0 (X m) E <= (r + d1) ^ m * error 3 s k0 (X 0%nat) E + (d0 + d1 * size 3 s E) / (1 - (r + d1)))%R).
  Proof.
    intros Hl Hd. destruct (mp_uniform eps u g k0 epsilon xi zeta mu nu settled thick J kappa loss He He1 Hu Hs Hk Hnu Hm Hprec Hcouple Hd (Rlt_le _ _ Hl) Hl) as (E & H & q & Hq & HM & HU & HC).
    assert (Q : (0 <= sqrt q < 1)%R) by (split; [apply sqrt_pos|rewrite <- sqrt_1; apply sqrt_lt_1_alt; lra]).
    assert (St : forall F, (error 3 s k0 (next_field o F) E <= sqrt q * error 3 s k0 F E)%R) by (intros F; apply rb_root; [lra|apply HC]).
    exists E, H, (sqrt q). split; [exact Q|]. split; [exact HM|]. split; [exact HU|]. split.
    - intros F. apply rb_correction; [lra|apply St].
    - intros d0 d1 X H0 H1 H2 HX. exact (rb_bounded s k0 (next_field o) E (sqrt q) (proj1 Q) St d0 d1 X H0 H1 HX H2).
  Qed.
  Lemma rb_lossless E H d0 d1 X : dissipates (rshape g) epsilon xi zeta mu 0 -> maxwell u g k0 epsilon xi zeta mu E H J -> (0 <= d0)%R -> (0 <= d1)%R -> perturbed 3 s k0 (fun _ => next_field o) d0 d1 X ->
    forall m, (error 3 s k0 (X m) E <= (1 + d1) ^ m * (error 3 s k0 (X 0%nat) E + INR m * (d0 + d1 * size 3 s E)))%R.
  Proof.
    intros Hd HM H0 H1 HX. apply (rb_linear s k0 (next_field o)); try assumption. intros F. rewrite <- (Rmult_1_l (error 3 s k0 F E)). rewrite <- sqrt_1 at 1. apply rb_root; [lra|]. rewrite Rmult_1_l.
    exact (mp_distance eps u g k0 epsilon xi zeta mu nu settled thick J kappa 0 He He1 Hu Hs Hk Hnu Hm Hprec Hcouple Hd (Rle_refl 0) E H F HM).
  Qed.
End Magnetic.

Lemma rb_error_ext s k0 (F E E' : vfield) : vagree 3 s E E' -> error 3 s k0 F E = error 3 s k0 F E'.
Proof. intros H. change (vnorm 3 s (fun c p => electric_field k0 F c p - E c p)%C = vnorm 3 s (fun c p => electric_field k0 F c p - E' c p)%C). apply vnorm_ext. intros c p Hc Hp. rewrite (H c p Hc Hp). reflexivity. Qed.
Lemma rb_problem eps u g k0 epsilon xi zeta mu settled thick loss J E : physical u -> magnetic_problem eps g k0 epsilon xi zeta mu settled loss -> let s := rshape g in let o := construct eps g k0 true epsilon xi zeta mu settled thick (driving u k0 J) in
  computes 3 s k0 o E -> exists r, (0 <= r < 1)%R /\
    (forall F, ((1 - r) * error 3 s k0 F E <= size 3 s (electric_field k0 (update o F)) <= (1 + r) * error 3 s k0 F E)%R) /\
    (forall d0 d1 X, (0 <= d0)%R -> (0 <= d1)%R -> (r + d1 < 1)%R -> perturbed 3 s k0 (fun _ => next_field o) d0 d1 X ->
     forall m, (error 3 s k0 (X m) E <= (r + d1) ^ m * error 3 s k0 (X 0%nat) E + (d0 + d1 * size 3 s E) / (1 - (r + d1)))%R).
Proof.
  intros U Pb s o Cp. destruct (computed _ u _ _ _ _ _ _ _ _ _ _ _ U Pb Cp) as (H & M). destruct Pb as (He & He1 & Hs & Hk & (nu & Hnu & kappa & Hc) & Hm & Hp & Hl & Ha).
  destruct (rb_lossy eps u g k0 epsilon xi zeta mu nu settled thick J kappa He He1 U Hs Hk Hnu Hm Hp Hc loss Hl (absorbs_dissipates _ _ _ _ _ _ (Rlt_le _ _ Hl) Ha)) as (E' & H' & r & Hr & _ & Un & Co & Pe).
  pose proof (Un E H M) as V. exists r. split; [exact Hr|]. split.
  - intros F. rewrite (rb_error_ext s k0 F E E' V). apply Co.
  - intros d0 d1 X H0 H1 H2 HX m. rewrite !(rb_error_ext s k0 _ E E' V).
    assert (size 3 s E = size 3 s E') as -> by (change (vnorm 3 s E = vnorm 3 s E'); apply vnorm_ext, V). apply Pe; assumption.
Qed.
