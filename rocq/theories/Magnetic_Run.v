(** Proofs about solve in magnetic media: it ends without an exception, and with loss the errors of E and H are bounded by the
    tolerance. *)
From Coq Require Import Reals Lra Lia List Arith ZArith Bool.
Require Import Verif.Base Verif.Cplx Verif.CSum Verif.Field Verif.Fourier_Model Verif.Fourier_Spec Verif.Fourier_Proofs Verif.Display_Model.
Require Import Verif.Vec_Model Verif.Vec_Spec Verif.Vec_Proofs Verif.Solver_Model Verif.Solver_Spec Verif.Solver_Proofs.
Require Import Verif.Solver_Convergence Verif.Solver_Limit Verif.Solver_Choice Verif.Choice_Model Verif.Choice_Proofs.
Require Import Verif.Derived_Model Verif.Derived_Spec Verif.Derived_Tensor Verif.Solver_Maxwell Verif.Derived_Proofs Verif.Solver_Bounded.
Require Import Verif.Run_Model Verif.Run_Spec Verif.Run_Proofs Verif.Run_Solve Verif.Run_Zero Verif.Run_Converge Verif.Run_Glue.
Require Import Verif.Operator_Convergence Verif.Magnetic_Norm Verif.Magnetic_Spec Verif.Magnetic_Choice Verif.Magnetic_Proofs.
Import ListNotations.
Local Open Scope R_scope.
Local Open Scope C_scope.

Section MagneticRun.
  Variables (eps : R) (u : si) (g : raster) (k0 : R) (epsilon xi zeta mu nu : tensor) (settled : R * R) (thick : option R) (J : vfield) (kappa : C) (loss : R).
  Hypothesis He : (0 < eps)%R.
  Hypothesis He1 : (2 * eps <= 1)%R.
  Hypothesis Hu : physical u.
  Hypothesis Hs : solvable true g k0.
  Hypothesis Hk : (0 < k0)%R.
  Hypothesis Hnu : inverse_of (rshape g) mu nu.
  Hypothesis Hm : is_magnetic (rshape g) xi zeta mu = true.
  Let beta := (snd settled * snd settled)%R.
  Hypothesis Hprec : (20 * sqrt (2 * sqrt eps) * ((1 + highest_frequency g k0) * (1 + highest_frequency g k0)) < beta)%R.
  Hypothesis Hcouple : forall G, vagree 3 (rshape g) (coupling xi zeta nu G) (fun c p => kappa * G c p).
  Hypothesis Hloss : dissipates (rshape g) epsilon xi zeta mu loss.
  Hypothesis Hloss0 : (0 <= loss)%R.
  Let o := Choice_Model.construct eps g k0 true epsilon xi zeta mu settled thick (driving u k0 J).
  Let alpha := o_alpha o.
  Let s := rshape g.
  Let T := medium_op g k0 beta epsilon xi zeta nu.
  Let reach := (singular_value_sum eps s (sigma_D (rstep g) k0) epsilon xi zeta mu (fst alpha) beta
    + sqrt (2 * sqrt eps) / beta * ((1 + sigma_D (rstep g) k0) * (1 + sigma_D (rstep g) k0)))%R.
  Let rho := (reach / snd alpha)%R.
  Let fineo : fine o := mp_fine eps u g k0 epsilon xi zeta mu settled thick J He He1 Hs Hk Hm Hprec.
  Let ai : (0 < snd (o_alpha o))%R := mp_ai eps u g k0 epsilon xi zeta mu settled thick J He He1 Hs Hk Hm Hprec.
  Let rho1 : (0 <= rho < 1)%R := mp_rho eps u g k0 epsilon xi zeta mu settled thick J He He1 Hs Hk Hm Hprec.
  Let b0 : (0 < beta)%R := mp_beta eps g k0 settled He He1 Hs Hk Hprec.
  Let shapes : rshape (o_grid o) = s /\ vector_length o = 3%nat := mp_shape eps u g k0 epsilon xi zeta mu settled thick J Hm.
  Let tminus := mc_minus g k0 beta epsilon xi zeta nu Hs.
  Let tvagree := mc_vagree g k0 beta epsilon xi zeta nu Hs.
  Let tloss := mc_absorbs g k0 beta epsilon xi zeta mu nu Hs Hk b0 Hnu kappa loss Hcouple Hloss.
  Let chi := mp_chi eps u g k0 epsilon xi zeta mu nu settled thick J He He1 Hs Hk Hnu Hm Hprec.
  Let dev := mp_deviation eps u g k0 epsilon xi zeta mu nu settled thick J He He1 Hs Hk Hnu Hm Hprec.
  Let loss0 := mp_loss0 eps g k0 settled loss He He1 Hs Hk Hprec Hloss0.

  Variable x0 : solution.
  Hypothesis Hw : wavenumber x0 = k0.
  Hypothesis Ho : operators x0 = o.
  Hypothesis H0 : forall c p, field x0 c p = 0.
  Hypothesis Hp : prev_norm x0 = Inf.

  Lemma mr_ends {W} E H maxiter rtol (w : W) : maxwell u g k0 epsilon xi zeta mu E H J -> (0 < rtol)%R ->
    exists fuel x, loop fuel (limits maxiter rtol) true w x0 = Some (Returned w x) /\ ended o none k0 maxiter rtol x.
  Proof.
    intros HM Ht. pose proof shapes as (E1 & E2).
    pose proof (Operator_Convergence.M_vagree o T fineo ai) as R1. pose proof (Operator_Convergence.next_vagree o T fineo ai) as R2. pose proof (Operator_Convergence.next_minus o T fineo ai) as R3.
    pose proof (Operator_Convergence.M_nonincreasing o T fineo ai) as R4. pose proof (Operator_Convergence.M_drop_update o T fineo ai) as R5. pose proof (Operator_Convergence.updates_rate o T fineo ai) as R6.
    set (M := fun F : vfield => (fun c p => F c p + chi_op o (fun c p => green_op o (chi_op o F) c p - F c p) c p) : vfield).
    apply (run_ends o M) with (start := none) (kappa := ((1 - rho * rho) / 4)%R)
      (K := (4 / (1 - rho * rho) * vnorm2 3 s (fun c p => none c p - RtoC (k0 * k0) * E c p)%C)%R); try assumption; rewrite ?E1, ?E2 in *.
    - intros F G. exact (R1 tvagree chi F G).
    - intros F G. exact (R2 tvagree chi F G).
    - intros F G. exact (R3 tminus tvagree chi F G).
    - intros e. exact (R4 tminus chi (loss / beta)%R rho tloss loss0 dev (proj1 rho1) e (Rlt_le _ _ (proj2 rho1))).
    - pose proof rho1. nra.
    - intros F. exact (R5 tminus chi (loss / beta)%R rho tloss loss0 dev (proj1 rho1) F (proj2 rho1)).
    - intros m. apply (R6 tminus tvagree chi (loss / beta)%R rho tloss loss0 dev (proj1 rho1) none _ m (proj2 rho1)).
      exact (proj1 (mp_solution eps u g k0 epsilon xi zeta mu nu settled thick J kappa He He1 Hu Hs Hk Hnu Hm Hprec Hcouple E H HM)).
    - reflexivity.
    - apply none_is. exact H0.
  Qed.
  Lemma mr_error start (E H : vfield) k m x : (k <= 2 * (loss / beta / snd alpha))%R -> (k <= 1 - rho * rho)%R -> (0 < k)%R ->
    maxwell u g k0 epsilon xi zeta mu E H J -> reached o start k0 m x ->
    (magnitude x (fun c p => get_E x c p - E c p)%C <= 4 / k * (norm o (update o (Nat.iter m (next_field o) start)) / (k0 * k0)))%R.
  Proof.
    intros Hk1 Hk2 Hk3 HM (Xw & Xo & Xf & Xp & Xi). pose proof shapes as (E1 & E2). assert (k0 <> 0%R) as Hk0 by lra.
    assert (0 < k0 * k0)%R as Hkk by (apply k2_pos; exact Hk0).
    pose proof (Operator_Convergence.distance_contracts o T fineo ai) as HD. pose proof (Operator_Convergence.fixed_next o) as HF. rewrite E1, E2 in HD, HF.
    assert (norm o (fun c p => Nat.iter (Datatypes.S m) (next_field o) start c p - RtoC (k0 * k0) * E c p)%C <=
            2 / (1 - (1 - k / 2)) * norm o (update o (Nat.iter m (next_field o) start)))%R as HB.
    { apply (error_bound o start (1 - k / 2)); rewrite ?E1, ?E2.
      - assert (k <= 1)%R by nra. lra.
      - apply HF. exact (proj1 (mp_solution eps u g k0 epsilon xi zeta mu nu settled thick J kappa He He1 Hu Hs Hk Hnu Hm Hprec Hcouple E H HM)).
      - intros F G. apply (HD tminus tvagree chi (loss / beta)%R rho tloss dev F G k Hk1 Hk2). lra. }
    rewrite magnitude_norm, Xo.
    rewrite (norm_ext o _ (fun c p => (Nat.iter (Datatypes.S m) (next_field o) start c p - RtoC (k0 * k0) * E c p) / RtoC (k0 * k0))).
    - rewrite norm_electric by exact Hk0. replace (2 / (1 - (1 - k / 2)))%R with (4 / k)%R in HB by (field; lra).
      unfold Rdiv at 1 3. rewrite <- Rmult_assoc. apply Rmult_le_compat_r; [|exact HB]. left. apply Rinv_0_lt_compat. exact Hkk.
    - intros c p _ _. unfold get_E, electric_field. rewrite Xw, Xf. field. apply k2_neq. exact Hk0.
  Qed.
  (** The magnetizing field depends continuously on the electric field. *)
  Lemma mr_H_bounded : exists K, (0 <= K)%R /\ forall F G : vfield,
    (vnorm 3 s (fun c p => magnetizing_field u o k0 F c p - magnetizing_field u o k0 G c p)%C <=
     K * vnorm 3 s (fun c p => electric_field k0 F c p - electric_field k0 G c p)%C)%R.
  Proof.
    pose proof Hs as (Hg & Hk0 & Hn). specialize (Hn eq_refl).
    pose proof (bounded_tapply s) as Ht. pose proof (bounded_curl g Hg Hn) as Hc.
    pose proof (bounded_scal s (/ (RtoC (mu_0 u) * RtoC (c_light u))) _
      (bounded_plus s _ _ (bounded_scal s (- (Ci / RtoC k0)) _ (bounded_comp s _ _ (Ht nu) Hc)) (bounded_scal s (- (1)) _ (bounded_comp s _ _ (Ht nu) (Ht zeta))))) as HB.
    destruct HB as (K & HK & HB). exists (sqrt K). split; [apply sqrt_pos|]. intros F G.
    assert (forall F, vagree 3 s (magnetizing_field u o k0 F) (faraday_H u g k0 zeta nu (electric_field k0 F))) as HH.
    { intros X. unfold o. rewrite (mp_prepare eps u g k0 epsilon xi zeta mu settled thick J Hm). apply (magnetic_H u g k0 _ beta epsilon xi zeta mu nu J); try assumption.
      - apply Rgt_not_eq; exact ai.
      - apply Rgt_not_eq; exact b0. }
    set (D := fun c p => electric_field k0 F c p - electric_field k0 G c p).
    rewrite (vnorm_ext 3 s _ (faraday_H u g k0 zeta nu D)).
    - apply vnorm_le; [apply sqrt_pos|]. rewrite sqrt_sqrt by exact HK. apply HB.
    - intros c p Hc' Hp'. rewrite (HH F c p Hc' Hp'), (HH G c p Hc' Hp'). unfold faraday_H.
      assert (vagree 3 s D (fun c p => electric_field k0 F c p + - (1) * electric_field k0 G c p)) as HD by (intros ? ? _ _; unfold D; ring).
      assert (vagree 3 s (curl g 3 D) (fun c p => curl g 3 (electric_field k0 F) c p + - (1) * curl g 3 (electric_field k0 G) c p)) as H1.
      { intros d q Hd Hq. rewrite (curl_vagree g _ _ Hn HD d q Hd Hq). rewrite curl_plus by assumption. rewrite curl_scal by assumption. reflexivity. }
      assert (forall t X Y, vagree 3 s (tapply t (fun c p => X c p + - (1) * Y c p)) (fun c p => tapply t X c p + - (1) * tapply t Y c p)) as Hl.
      { intros t X Y d q Hd Hq. destruct t as [f|mm]; cbn [tapply csum]; ring. }
      pose proof (tapply_ext3 s) as Hx.
      rewrite (Hx nu _ _ H1 c p Hc' Hp'), (Hl nu _ _ c p Hc' Hp').
      assert (vagree 3 s (tapply zeta D) (fun c p => tapply zeta (electric_field k0 F) c p + - (1) * tapply zeta (electric_field k0 G) c p)) as H2.
      { intros d q Hd Hq. rewrite (Hx zeta _ _ HD d q Hd Hq). apply Hl; assumption. }
      rewrite (Hx nu _ _ H2 c p Hc' Hp'), (Hl nu _ _ c p Hc' Hp'). ring.
  Qed.
  (** The last change bounds the errors. *)
  Lemma mr_error_limit : (0 < loss)%R -> exists (E H : vfield) (K : R), maxwell u g k0 epsilon xi zeta mu E H J /\
    (forall E' H', maxwell u g k0 epsilon xi zeta mu E' H' J -> vagree 3 s E' E /\ vagree 3 s H' H) /\
    forall start rtol x, (0 < rtol)%R -> ended o start k0 None rtol x ->
      (magnitude x (fun c p => get_E x c p - E c p)%C <= K * rtol * magnitude x (get_E x))%R /\
      (magnitude x (fun c p => magnetizing_field u (operators x) (wavenumber x) (field x) c p - H c p)%C <= K * rtol * magnitude x (get_E x))%R.
  Proof.
    intros Hl. pose proof rho1 as Hr. pose proof ai as Ha. pose proof b0 as Hb. pose proof shapes as (E1 & E2). assert (k0 <> 0%R) as Hk0 by lra.
    destruct (mp_converges eps u g k0 epsilon xi zeta mu nu settled thick J kappa loss He He1 Hu Hs Hk Hnu Hm Hprec Hcouple Hloss Hloss0 none Hl) as (E & H & q & Hq & HM & HU & _).
    set (k := Rmin (2 * (loss / beta / snd alpha)) (1 - rho * rho)).
    assert (0 < k)%R as Hk3.
    { unfold k. apply Rmin_glb_lt; [|nra]. apply Rmult_lt_0_compat; [lra|]. apply Rdiv_lt_0_compat; [apply Rdiv_lt_0_compat|]; assumption. }
    destruct mr_H_bounded as (KH & HKH & HH).
    assert (0 < 4 / k)%R as Hp4 by (apply Rdiv_lt_0_compat; lra).
    exists E, H, (4 / k + KH * (4 / k))%R. split; [exact HM|].
    pose proof (fun E H HM => proj2 (mp_solution eps u g k0 epsilon xi zeta mu nu settled thick J kappa He He1 Hu Hs Hk Hnu Hm Hprec Hcouple E H HM)) as HS. fold o s in HS.
    assert (forall X : vfield, forall c p, electric_field k0 (fun c p => RtoC (k0 * k0) * X c p) c p = X c p) as HE.
    { intros X c p. unfold electric_field. field. apply k2_neq. exact Hk0. }
    split.
    - intros E' H' HM'. pose proof (HU E' H' HM') as HEE. split; [exact HEE|].
      pose proof (HS E H HM) as A. pose proof (HS E' H' HM') as B.
      pose proof (HH (fun c p => RtoC (k0 * k0) * E' c p) (fun c p => RtoC (k0 * k0) * E c p)) as D.
      rewrite (vnorm_ext 3 s (fun c p => electric_field k0 (fun c p => RtoC (k0 * k0) * E' c p) c p - electric_field k0 (fun c p => RtoC (k0 * k0) * E c p) c p) (fun _ _ => 0 * 0)) in D
        by (intros c p Hc Hp'; rewrite !HE, (HEE c p Hc Hp'); ring).
      rewrite (vnorm_scal 3 s 0 (fun _ _ => 0)), Cmod_0, Rmult_0_l, Rmult_0_r in D.
      assert (vnorm2 3 s (fun c p => magnetizing_field u o k0 (fun c p => RtoC (k0 * k0) * E' c p) c p - magnetizing_field u o k0 (fun c p => RtoC (k0 * k0) * E c p) c p)%C = 0%R) as Z.
      { rewrite <- vnorm_sq. match goal with |- (?a * ?a = 0)%R => assert (a = 0)%R as -> by (apply Rle_antisym; [exact D|apply vnorm_nonneg]) end. ring. }
      apply vnorm2_zero in Z. intros c p Hc Hp'. rewrite (A c p Hc Hp'), (B c p Hc Hp'). specialize (Z c p Hc Hp'). cbn beta in Z.
      match type of Z with ?x - ?y = _ => transitivity (x - y + y); [ring|] end. rewrite Z. ring.
    - intros start rtol x Ht (m & Hx & [(i & Hi & _)|(Hsm & _)]); [discriminate|].
      assert (magnitude x (fun c p => get_E x c p - E c p)%C <= 4 / k * rtol * magnitude x (get_E x))%R as HB.
      { assert (magnitude x (get_E x) = norm o (Nat.iter (Datatypes.S m) (next_field o) start) / (k0 * k0))%R as ->.
        { destruct Hx as (Xw & Xo & Xf & _ & _). rewrite magnitude_E by (rewrite Xw; exact Hk0). rewrite Xw, Xo, Xf. reflexivity. }
        eapply Rle_trans; [apply (mr_error start E H k m x (Rmin_l _ _) (Rmin_r _ _) Hk3 HM Hx)|].
        assert (0 < k0 * k0)%R as Hkk by (apply k2_pos; exact Hk0).
        unfold Rdiv at 2 4. rewrite <- !Rmult_assoc. apply Rmult_le_compat_r; [left; apply Rinv_0_lt_compat; exact Hkk|]. rewrite Rmult_assoc.
        apply Rmult_le_compat_l; [lra|].
        destruct Hsm as [Hz|Hle]; [|exact Hle].
        rewrite Hz. apply Rmult_le_pos; [lra|apply norm_nonneg]. }
      destruct Hx as (Xw & Xo & Xf & _ & _).
      assert (0 <= magnitude x (get_E x))%R as HP by apply sqrt_pos.
      assert (0 <= rtol * magnitude x (get_E x))%R as HP2 by (apply Rmult_le_pos; lra).
      split.
      + eapply Rle_trans; [exact HB|]. rewrite !Rmult_assoc, Rmult_plus_distr_r. assert (0 <= KH * (4 / k) * (rtol * magnitude x (get_E x)))%R by (apply Rmult_le_pos; [apply Rmult_le_pos; lra|exact HP2]). lra.
      + assert (magnitude x (fun c p => magnetizing_field u (operators x) (wavenumber x) (field x) c p - H c p)%C <= KH * magnitude x (fun c p => get_E x c p - E c p)%C)%R as HB2.
        { pose proof (HH (field x) (fun c p => RtoC (k0 * k0) * E c p)) as D. unfold magnitude. rewrite Xo, E1, E2, Xw.
          change (vnorm 3 s (fun c p => magnetizing_field u o k0 (field x) c p - H c p)%C <= KH * vnorm 3 s (fun c p => get_E x c p - E c p)%C)%R.
          rewrite (vnorm_ext 3 s _ (fun c p => magnetizing_field u o k0 (field x) c p - magnetizing_field u o k0 (fun c p => RtoC (k0 * k0) * E c p) c p))
            by (intros c p Hc Hp'; rewrite (HS E H HM c p Hc Hp'); reflexivity).
          eapply Rle_trans; [exact D|]. apply Req_le. f_equal. apply vnorm_ext. intros c p _ _. rewrite HE. unfold get_E. rewrite Xw. reflexivity. }
        eapply Rle_trans; [exact HB2|]. eapply Rle_trans; [apply Rmult_le_compat_l; [exact HKH|exact HB]|].
        assert (0 <= 4 / k * (rtol * magnitude x (get_E x)))%R by (apply Rmult_le_pos; [lra|exact HP2]). lra.
  Qed.
  Lemma mr_accurate {W} (w : W) : (0 < loss)%R ->
    exists (E H : vfield) (K : R), maxwell u g k0 epsilon xi zeta mu E H J /\
      (forall E' H', maxwell u g k0 epsilon xi zeta mu E' H' J -> vagree 3 s E' E /\ vagree 3 s H' H) /\
      forall rtol, (0 < rtol)%R -> exists fuel x, loop fuel (limits None rtol) true w x0 = Some (Returned w x) /\
        (magnitude x (fun c p => get_E x c p - E c p)%C <= K * rtol * magnitude x (get_E x))%R /\
        (magnitude x (fun c p => magnetizing_field u (operators x) (wavenumber x) (field x) c p - H c p)%C <= K * rtol * magnitude x (get_E x))%R.
  Proof.
    intros Hl. destruct (mr_error_limit Hl) as (E & H & K & HM & HU & HK). exists E, H, K. split; [exact HM|]. split; [exact HU|]. intros rtol Ht.
    destruct (mr_ends E H None rtol w HM Ht) as (fuel & x & EL & Hx). exists fuel, x. split; [exact EL|]. exact (HK none rtol x Ht Hx).
  Qed.
End MagneticRun.
