(** solve from an initial field in magnetic and chiral media. *)
From Coq Require Import Reals Lra Lia List Arith ZArith Bool.
Require Import Verif.Base Verif.Num Verif.Grid_Model Verif.Grid_Spec Verif.Grid_Proofs Verif.Bound_Model Verif.Setup_Model Verif.Entry_Model Verif.Entry_Spec Verif.Entry_Proofs.
Require Import Verif.Array_Glue.
Require Import Verif.Cplx Verif.CSum Verif.Field Verif.Fourier_Model Verif.Fourier_Spec Verif.Fourier_Proofs Verif.Display_Model.
Require Import Verif.Vec_Model Verif.Vec_Spec Verif.Vec_Proofs Verif.Vec_Grid Verif.Solver_Model Verif.Solver_Spec Verif.Solver_Proofs.
Require Import Verif.Solver_Convergence Verif.Solver_Limit Verif.Solver_Choice Verif.Choice_Model Verif.Choice_Proofs.
Require Import Verif.Derived_Model Verif.Derived_Spec Verif.Derived_Tensor Verif.Solver_Maxwell Verif.Derived_Proofs Verif.Solver_Bounded.
Require Import Verif.Array_Model Verif.Array_Spec Verif.Material_Model Verif.Material_Spec.
Require Import Verif.Run_Model Verif.Run_Spec Verif.Run_Proofs Verif.Run_Solve Verif.Run_Zero Verif.Run_Converge Verif.Run_Glue.
Require Import Verif.Operator_Convergence Verif.Magnetic_Norm Verif.Magnetic_Spec Verif.Magnetic_Choice Verif.Magnetic_Proofs Verif.Magnetic_Run.
Require Import Verif.Whole_Model Verif.Whole_Spec Verif.Whole_Proofs Verif.Whole_Results Verif.Whole_Magnetic Verif.Warm_Model Verif.Warm_Proofs.
Import ListNotations.
Local Open Scope R_scope.
Local Open Scope C_scope.

Lemma second_order_none g k0 eps xi zeta nu c p : second_order g k0 eps xi zeta nu none c p = 0.
Proof.
  unfold second_order. rewrite (none_is (curl g 3 none)) by apply curl_none. rewrite (none_is (tapply zeta none)) by (intros; apply tapply_none).
  rewrite (none_is (tapply nu none)) by (intros; apply tapply_none). rewrite !tapply_none, !curl_none. ring.
Qed.
Section WarmRun.
  Variables (eps : R) (u : si) (g : raster) (k0 : R) (epsilon xi zeta mu nu : tensor) (settled : R * R) (thick : option R) (J : vfield) (kappa : C) (loss : R).
  Hypothesis He : (0 < eps)%R.
  Hypothesis He1 : (2 * eps <= 1)%R.
  Hypothesis Hu : physical u.
  Hypothesis Hs : solvable true g k0.
  Hypothesis Hk : (0 < k0)%R.
  Hypothesis Hnu : inverse_of (rshape g) mu nu.
  Hypothesis Hm : is_magnetic (rshape g) xi zeta mu = true.
  Let beta := (snd settled * snd settled)%R.
  Hypothesis Hprec : (20 * sqrt (2 * sqrt eps) * ((1 + highest_frequency g k0) * (1 + highest_frequency g k0)) < beta)%R.
  Hypothesis Hcouple : forall G, vagree 3 (rshape g) (coupling xi zeta nu G) (fun c p => kappa * G c p).
  Hypothesis Hloss : dissipates (rshape g) epsilon xi zeta mu loss.
  Hypothesis Hloss0 : (0 <= loss)%R.
  Let o := Choice_Model.construct eps g k0 true epsilon xi zeta mu settled thick (driving u k0 J).
  Let alpha := o_alpha o.
  Let s := rshape g.
  Let T := medium_op g k0 beta epsilon xi zeta nu.
  Let reach := (singular_value_sum eps s (sigma_D (rstep g) k0) epsilon xi zeta mu (fst alpha) beta
    + sqrt (2 * sqrt eps) / beta * ((1 + sigma_D (rstep g) k0) * (1 + sigma_D (rstep g) k0)))%R.
  Let rho := (reach / snd alpha)%R.
  Let fineo : fine o := mp_fine eps u g k0 epsilon xi zeta mu settled thick J He He1 Hs Hk Hm Hprec.
  Let ai : (0 < snd (o_alpha o))%R := mp_ai eps u g k0 epsilon xi zeta mu settled thick J He He1 Hs Hk Hm Hprec.
  Let rho1 : (0 <= rho < 1)%R := mp_rho eps u g k0 epsilon xi zeta mu settled thick J He He1 Hs Hk Hm Hprec.
  Let b0 : (0 < beta)%R := mp_beta eps g k0 settled He He1 Hs Hk Hprec.
  Let shapes : rshape (o_grid o) = s /\ vector_length o = 3%nat := mp_shape eps u g k0 epsilon xi zeta mu settled thick J Hm.
  Let tminus := mc_minus g k0 beta epsilon xi zeta nu Hs.
  Let tvagree := mc_vagree g k0 beta epsilon xi zeta nu Hs.
  Let tloss := mc_absorbs g k0 beta epsilon xi zeta mu nu Hs Hk b0 Hnu kappa loss Hcouple Hloss.
  Let chi := mp_chi eps u g k0 epsilon xi zeta mu nu settled thick J He He1 Hs Hk Hnu Hm Hprec.
  Let dev := mp_deviation eps u g k0 epsilon xi zeta mu nu settled thick J He He1 Hs Hk Hnu Hm Hprec.
  Let loss0 := mp_loss0 eps g k0 settled loss He He1 Hs Hk Hprec Hloss0.

  Let M := fun F : vfield => (fun c p => F c p + chi_op o (fun c p => green_op o (chi_op o F) c p - F c p) c p) : vfield.
  Let no := vector_length o.
  Let so := rshape (o_grid o).

  Lemma wr_M_vagree F G : vagree no so F G -> vagree no so (M F) (M G).
  Proof. pose proof (Operator_Convergence.M_vagree o T fineo ai) as R. pose proof shapes as (E1 & E2). unfold no, so. rewrite E1, E2 in *. exact (R tvagree chi F G). Qed.
  Lemma wr_next_minus F G : vagree no so (fun c p => next_field o F c p - next_field o G c p) (M (fun c p => F c p - G c p)).
  Proof. pose proof (Operator_Convergence.next_minus o T fineo ai) as R. pose proof shapes as (E1 & E2). unfold no, so. rewrite E1, E2 in *. exact (R tminus tvagree chi F G). Qed.
  Lemma wr_M_le e : (vnorm2 no so (M e) <= vnorm2 no so e)%R.
  Proof.
    pose proof (Operator_Convergence.M_nonincreasing o T fineo ai) as R. pose proof shapes as (E1 & E2). unfold no, so. rewrite E1, E2 in *.
    exact (R tminus chi (loss / beta)%R rho tloss loss0 dev (proj1 rho1) e (Rlt_le _ _ (proj2 rho1))).
  Qed.
  Lemma wr_kappa : (0 < (1 - rho * rho) / 4)%R.
  Proof. pose proof rho1. nra. Qed.
  Lemma wr_M_drop F : ((1 - rho * rho) / 4 * vnorm2 no so (fun c p => M F c p - F c p)%C <= vnorm2 no so F - vnorm2 no so (M F))%R.
  Proof.
    pose proof (Operator_Convergence.M_drop_update o T fineo ai) as R. pose proof shapes as (E1 & E2). unfold no, so. rewrite E1, E2 in *.
    exact (R tminus chi (loss / beta)%R rho tloss loss0 dev (proj1 rho1) F (proj2 rho1)).
  Qed.
  Lemma wr_still E H : maxwell u g k0 epsilon xi zeta mu E H J -> vagree no so (update o (fun c p => RtoC (k0 * k0) * E c p)) none.
  Proof.
    intros HM. pose proof shapes as (E1 & E2). unfold no, so. rewrite E1, E2.
    exact (proj1 (mp_solution eps u g k0 epsilon xi zeta mu nu settled thick J kappa He He1 Hu Hs Hk Hnu Hm Hprec Hcouple E H HM)).
  Qed.
  Lemma wr_rate Es start : vagree no so (update o Es) none -> forall m,
    (INR (Datatypes.S m) * vnorm2 no so (update o (Nat.iter m (next_field o) start)) <= 4 / (1 - rho * rho) * vnorm2 no so (fun c p => start c p - Es c p)%C)%R.
  Proof.
    intros Hz m. pose proof (Operator_Convergence.updates_rate o T fineo ai) as R. pose proof shapes as (E1 & E2). revert Hz. unfold no, so. rewrite E1, E2 in *. intros Hz.
    apply (R tminus tvagree chi (loss / beta)%R rho tloss loss0 dev (proj1 rho1) start Es m (proj2 rho1)). exact Hz.
  Qed.
  (** A current makes the first change. *)
  Lemma wr_moves c p : (c < 3)%nat -> CSum.inside s p -> J c p <> 0 -> vnorm2 no so (update o none) <> 0%R.
  Proof.
    intros Hc Hp HJ HN. pose proof shapes as (E1 & E2). revert HN. unfold no, so. rewrite E1, E2. intros HN. apply vnorm2_zero in HN. apply HJ.
    pose proof (proj1 (mp_fixed eps u g k0 epsilon xi zeta mu nu settled thick J kappa He He1 Hu Hs Hk Hnu Hm Hprec Hcouple none) HN) as HM.
    apply (maxwell_second_order u g k0 epsilon xi zeta mu nu Hu Hs Hnu) in HM. destruct HM as (_ & HM). specialize (HM c p Hc Hp).
    assert (electric_field k0 none = none) as EN by (apply none_is; intros c' p'; unfold electric_field, none, Cdiv; ring). rewrite EN in HM.
    rewrite second_order_none in HM.
    unfold driving in HM. destruct Hu as (Hcl & Hmu & _).
    assert (Ci * RtoC (k0 * c_light u) * RtoC (mu_0 u) <> 0) as Hne.
    { assert (0 < k0 * c_light u)%R by (apply Rmult_lt_0_compat; assumption). assert (0 < k0 * c_light u * mu_0 u)%R by (apply Rmult_lt_0_compat; assumption).
      intros E. apply (f_equal snd) in E. cbn in E. lra. }
    revert HM Hne. generalize (Ci * RtoC (k0 * c_light u) * RtoC (mu_0 u)). intros d HM Hne.
    transitivity (d * J c p / d); [field; exact Hne|]. rewrite <- HM. unfold Cdiv. ring.
  Qed.
  (** Corrections become smaller until they are zero. *)
  Lemma wr_shrinks F : (exists E H, maxwell u g k0 epsilon xi zeta mu E H J) -> norm o (update o F) <> 0%R -> (norm o (update o (next_field o F)) < norm o (update o F))%R.
  Proof.
    intros (E & H & HM) Hn. apply norm_lt.
    apply (de_lt o M wr_M_vagree wr_next_minus wr_M_le _ wr_kappa wr_M_drop F _ (wr_rate _ F (wr_still E H HM)) 0%nat). intros Z. apply Hn. apply norm_0. exact Z.
  Qed.
  (** The errors of what solve returns, with the constants. *)
  Lemma wr_errors KH start (E H : vfield) rtol x : (0 < loss)%R -> (0 <= KH)%R ->
    (forall F G : vfield, (vnorm 3 s (fun c p => magnetizing_field u o k0 F c p - magnetizing_field u o k0 G c p)%C <= KH * vnorm 3 s (fun c p => electric_field k0 F c p - electric_field k0 G c p)%C)%R) ->
    maxwell u g k0 epsilon xi zeta mu E H J -> (0 < rtol)%R -> ended o start k0 None rtol x ->
    let k := Rmin (2 * (loss / beta / snd alpha)) (1 - rho * rho) in
    (magnitude x (fun c p => get_E x c p - E c p)%C <= 4 / k * rtol * magnitude x (get_E x))%R /\
    (magnitude x (fun c p => magnetizing_field u (operators x) (wavenumber x) (field x) c p - H c p)%C <= KH * (4 / k * rtol * magnitude x (get_E x)))%R.
  Proof.
    intros Hl HKH HH HM Ht (m & Hx & [(i & Hi & _)|(Hsm & _)]) k; [discriminate|]. pose proof rho1 as Hr. pose proof ai as Ha. pose proof b0 as Hb. pose proof shapes as (E1 & E2). assert (k0 <> 0%R) as Hk0 by lra.
    assert (0 < k)%R as Hk3.
    { unfold k. apply Rmin_glb_lt; [|nra]. apply Rmult_lt_0_compat; [lra|]. apply Rdiv_lt_0_compat; [apply Rdiv_lt_0_compat|]; assumption. }
    assert (0 < 4 / k)%R as Hp4 by (apply Rdiv_lt_0_compat; lra).
    assert (magnitude x (fun c p => get_E x c p - E c p)%C <= 4 / k * rtol * magnitude x (get_E x))%R as HB.
    { assert (magnitude x (get_E x) = norm o (Nat.iter (Datatypes.S m) (next_field o) start) / (k0 * k0))%R as ->.
      { destruct Hx as (Xw & Xo & Xf & _ & _). rewrite magnitude_E by (rewrite Xw; exact Hk0). rewrite Xw, Xo, Xf. reflexivity. }
      eapply Rle_trans; [apply (mr_error eps u g k0 epsilon xi zeta mu nu settled thick J kappa loss He He1 Hu Hs Hk Hnu Hm Hprec Hcouple Hloss start E H k m x (Rmin_l _ _) (Rmin_r _ _) Hk3 HM Hx)|].
      assert (0 < k0 * k0)%R as Hkk by (apply k2_pos; exact Hk0).
      unfold Rdiv at 2 4. rewrite <- !Rmult_assoc. apply Rmult_le_compat_r; [left; apply Rinv_0_lt_compat; exact Hkk|]. rewrite Rmult_assoc.
      apply Rmult_le_compat_l; [lra|].
      destruct Hsm as [Hz|Hle]; [|exact Hle].
      unfold o in Hz |- *. rewrite Hz. apply Rmult_le_pos; [lra|apply norm_nonneg]. }
    split; [exact HB|]. destruct Hx as (Xw & Xo & Xf & _ & _).
    eapply Rle_trans; [|apply Rmult_le_compat_l; [exact HKH|exact HB]].
    pose proof (HH (field x) (fun c p => RtoC (k0 * k0) * E c p)) as D. unfold magnitude. rewrite Xo, E1, E2, Xw.
    change (vnorm 3 s (fun c p => magnetizing_field u o k0 (field x) c p - H c p)%C <= KH * vnorm 3 s (fun c p => get_E x c p - E c p)%C)%R.
    pose proof (proj2 (mp_solution eps u g k0 epsilon xi zeta mu nu settled thick J kappa He He1 Hu Hs Hk Hnu Hm Hprec Hcouple E H HM)) as HS. fold o s in HS.
    rewrite (vnorm_ext 3 s _ (fun c p => magnetizing_field u o k0 (field x) c p - magnetizing_field u o k0 (fun c p => RtoC (k0 * k0) * E c p) c p))
      by (intros c p Hc Hp'; rewrite (HS c p Hc Hp'); reflexivity).
    eapply Rle_trans; [exact D|]. apply Req_le. f_equal. apply vnorm_ext. intros c p _ _. unfold get_E. rewrite Xw. unfold electric_field. field. apply k2_neq. exact Hk0.
  Qed.
  Variable x0 : solution.
  Hypothesis Hw : wavenumber x0 = k0.
  Hypothesis Ho : operators x0 = o.
  Hypothesis Hp : prev_norm x0 = Inf.

  Lemma wr_finishes {W} E H maxiter rtol (w : W) : maxwell u g k0 epsilon xi zeta mu E H J -> vnorm2 no so (update o none) <> 0%R -> (0 < rtol)%R ->
    exists fuel, finished o (field x0) k0 maxiter rtol w (loop fuel (limits maxiter rtol) true w x0).
  Proof.
    intros HM Hn Ht. exact (run_finishes o M wr_M_vagree wr_next_minus wr_M_le _ wr_kappa wr_M_drop (field x0) _ (wr_rate _ (field x0) (wr_still E H HM)) k0 maxiter rtol w x0
      (or_intror Hn) Ht Hw Ho eq_refl Hp).
  Qed.
  Lemma wr_returns {W} E H maxiter rtol (w : W) : maxwell u g k0 epsilon xi zeta mu E H J -> vnorm2 no so (update o none) <> 0%R ->
    (vnorm2 no so (fun c p => field x0 c p - RtoC (k0 * k0) * E c p)%C <= vnorm2 no so (fun c p => RtoC (k0 * k0) * E c p)%C)%R -> (0 < rtol)%R ->
    exists fuel x, loop fuel (limits maxiter rtol) true w x0 = Some (Returned w x) /\ ended o (field x0) k0 maxiter rtol x.
  Proof.
    intros HM Hn Hd Ht. refine (run_returns o M wr_M_vagree wr_next_minus wr_M_le _ wr_kappa wr_M_drop (field x0) _ (wr_rate _ (field x0) (wr_still E H HM)) k0 maxiter rtol w x0
      _ (or_intror Hn) Ht Hw Ho eq_refl Hp).
    intros m. exact (de_closer o M wr_next_minus wr_M_le _ wr_kappa wr_M_drop (field x0) _ m (wr_still E H HM) Hd).
  Qed.
  Lemma wr_closer {W} E H maxiter rtol : maxwell u g k0 epsilon xi zeta mu E H J -> (0 <= rtol)%R ->
    forall fuel (w w' : W) x, loop fuel (limits maxiter rtol) true w x0 = Some (Returned w' x) -> wavenumber x = k0 /\ operators x = o /\
      (vnorm2 no so (fun c p => field x c p - RtoC (k0 * k0) * E c p)%C <= vnorm2 no so (fun c p => field x0 c p - RtoC (k0 * k0) * E c p)%C)%R.
  Proof.
    intros HM Ht [|fuel] w w' x'; [discriminate|]. cbn [loop].
    destruct (reached_first o (field x0) k0 x0 Hw Ho eq_refl Hp) as (x1 & E1 & Hx1 & Hc1). rewrite E1. intros EL.
    destruct (run_reached o M wr_M_vagree wr_next_minus wr_M_le _ wr_kappa wr_M_drop (field x0) _ (wr_rate _ (field x0) (wr_still E H HM)) k0 maxiter rtol w Ht fuel 0%nat x1 Hx1 Hc1 w' x' EL) as (m & Xw & Xo & Xf & _).
    split; [exact Xw|]. split; [exact Xo|]. rewrite Xf.
    exact (proj1 (de_distance o M wr_next_minus wr_M_le _ wr_kappa wr_M_drop (field x0) _ (Datatypes.S m) (wr_still E H HM))).
  Qed.
  Lemma wr_tolerance : (0 < loss)%R -> (0 < Rmin (2 * (loss / beta / snd alpha)) (1 - rho * rho))%R.
  Proof.
    intros Hl. apply Rmin_glb_lt; [|pose proof rho1; nra]. apply Rmult_lt_0_compat; [lra|]. apply Rdiv_lt_0_compat; [apply Rdiv_lt_0_compat|]; [exact Hl|exact b0|exact ai].
  Qed.
  Lemma wr_error_limit : (0 < loss)%R -> exists (E H : vfield) (K : R), maxwell u g k0 epsilon xi zeta mu E H J /\
    (forall E' H', maxwell u g k0 epsilon xi zeta mu E' H' J -> vagree 3 s E' E /\ vagree 3 s H' H) /\
    forall start rtol x, (0 < rtol)%R -> ended o start k0 None rtol x ->
      (magnitude x (fun c p => get_E x c p - E c p)%C <= K * rtol * magnitude x (get_E x))%R /\
      (magnitude x (fun c p => magnetizing_field u (operators x) (wavenumber x) (field x) c p - H c p)%C <= K * rtol * magnitude x (get_E x))%R.
  Proof. exact (mr_error_limit eps u g k0 epsilon xi zeta mu nu settled thick J kappa loss He He1 Hu Hs Hk Hnu Hm Hprec Hcouple Hloss Hloss0). Qed.
  Lemma wr_never {W} rtol : (0 < loss)%R -> vagree no so (update o none) none -> (0 < rtol < Rmin (2 * (loss / beta / snd alpha)) (1 - rho * rho) / 4)%R -> norm o (field x0) <> 0%R ->
    forall fuel (w w' : W) x', loop fuel (limits None rtol) true w x0 <> Some (Returned w' x').
  Proof.
    intros Hl Hz. pose proof (wr_tolerance Hl) as Hk'. set (k := Rmin (2 * (loss / beta / snd alpha)) (1 - rho * rho)).
    fold k in Hk'. intros Ht Hn [|fuel] w w' x'; [discriminate|]. cbn [loop].
    destruct (reached_first o (field x0) k0 x0 Hw Ho eq_refl Hp) as (x1 & E1 & Hx1 & Hc1). rewrite E1.
    refine (run_never o M wr_M_vagree wr_next_minus wr_M_le _ wr_kappa wr_M_drop (field x0) _ (wr_rate none (field x0) Hz) (4 / k) k0 rtol w (proj1 Ht) _ _ _ fuel 0%nat x1 Hx1 Hc1 Hn w' x').
    - apply Rdiv_lt_0_compat; lra.
    - replace 1%R with (4 / k * (k / 4))%R by (field; lra). apply Rmult_lt_compat_l; [apply Rdiv_lt_0_compat; lra|apply Ht].
    - intros m. replace (4 / k)%R with (2 / (1 - (1 - k / 2)))%R by (field; lra).
      rewrite (norm_ext o _ (fun c p => Nat.iter (Datatypes.S m) (next_field o) (field x0) c p - none c p)) by (intros c p _ _; unfold none; ring).
      apply (error_bound o (field x0) (1 - k / 2)).
      + assert (k <= 1)%R by (unfold k; eapply Rle_trans; [apply Rmin_r|nra]). lra.
      + intros c p Hc Hi. unfold next_field. rewrite (Hz c p Hc Hi). unfold none. ring.
      + intros F G. pose proof (Operator_Convergence.distance_contracts o T fineo ai) as HD. pose proof shapes as (S1 & S2). rewrite S1, S2 in *.
        apply (HD tminus tvagree chi (loss / beta)%R rho tloss dev F G k (Rmin_l _ _) (Rmin_r _ _)). lra.
  Qed.
End WarmRun.

Section Results.
  Variables (W : Type) (u : si) (eps : R) (settled : R * R) (thick : option R) (q : request) (g : grid RN) (crd : nat -> list R) (k0 : R)
    (src J : vfield) (e x z m nu : tensor) (kappa : C) (chi : list nat -> C) (w : W).
  Hypothesis He : (0 < eps)%R.
  Hypothesis H1 : (2 * eps <= 1)%R.
  Hypothesis Hu : physical u.
  Hypothesis Hgrid : q_grid q = AGrid g.
  Hypothesis Hg : Entry_Spec.spatial g.
  Hypothesis Hdim : (ndim RN g <= 3)%nat.
  Hypothesis Hcrd : forall i, (i < ndim RN g)%nat -> coordinates g i = Ok (crd i).
  Hypothesis Hxi : means_tensor g crd (q_xi q) x.
  Hypothesis Hzeta : means_tensor g crd (q_zeta q) z.
  Hypothesis Hk : asked_wavenumber u q k0.
  Hypothesis Hk0 : (0 < k0)%R.
  Hypothesis Hkind : asked_kind g q true.
  Hypothesis Hsrc : asked_source u g crd k0 q true src.
  Hypothesis HJ : forall c p, src c p = driving u k0 J c p.
  Hypothesis Hmed : asked_materials g crd q e m.
  Hypothesis Hchi : asked_boundary g q chi.
  Hypothesis Hnu : inverse_of (points_of g) m nu.
  Hypothesis Hmag : is_magnetic (points_of g) x z m = true.
  Hypothesis Hprec : (20 * sqrt (2 * sqrt eps) * ((1 + highest_frequency (sampled g) k0) * (1 + highest_frequency (sampled g) k0)) < snd settled * snd settled)%R.
  Hypothesis Hcouple : forall G, vagree 3 (points_of g) (coupling x z nu G) (fun c p => kappa * G c p).
  Let problem := maxwell u (sampled g) k0 (plus_isotropic e chi) x z m.

  (** The operators that solve works with. *)
  Definition same_problem (e0 x0 z0 m0 : tensor) (J0 : vfield) : Prop :=
    solvable true (sampled g) k0 /\ inverse_of (points_of g) m0 nu /\ is_magnetic (points_of g) x0 z0 m0 = true /\
    (forall G, vagree 3 (points_of g) (coupling x0 z0 nu G) (fun c p => kappa * G c p)) /\
    (forall loss, dissipates (points_of g) (plus_isotropic e chi) x z m loss -> dissipates (points_of g) e0 x0 z0 m0 loss) /\
    vagree 3 (points_of g) J0 J /\ forall E H, maxwell u (sampled g) k0 e0 x0 z0 m0 E H J0 <-> problem E H J.
  Definition built (e0 x0 z0 m0 : tensor) (J0 : vfield) : ops := Choice_Model.construct eps (sampled g) k0 true e0 x0 z0 m0 settled thick (driving u k0 J0).

  Lemma wm_parts : exists e0 x0 z0 m0 J0, same_problem e0 x0 z0 m0 J0 /\ forall a, Array_Spec.broadcasts a (3 :: points_of g)%nat ->
    exists s, new_solution_from u eps settled thick q a = Ok s /\ wavenumber s = k0 /\ prev_norm s = Inf /\ operators s = built e0 x0 z0 m0 J0 /\
      vagree 3 (points_of g) (Run_Model.field s) (fun c p => RtoC (k0 * k0) * bget a (c :: p)).
  Proof.
    destruct (magnetic_parts u eps settled thick q g crd k0 src J e x z m chi Hu Hgrid Hg Hcrd Hxi Hzeta Hk Hk0 Hkind Hsrc HJ Hmed Hchi) as (s & e0 & x0 & z0 & m0 & J0 & Es & Ew & Ef & Ep & Eo & Ae & Ax & Az & Am & AJ).
    exists e0, x0, z0, m0, J0. split.
    - refine (conj (whole_solvable g true k0 Hg (fun _ => Hdim) (Rgt_not_eq _ _ Hk0)) (conj (inverse_agree _ _ _ Am nu Hnu) (conj _ (conj _ (conj _ (conj AJ _)))))).
      + rewrite (magnetic_agree _ _ _ _ _ _ _ (points_positive g (proj1 Hg)) Ax Az Am); exact Hmag.
      + intros G c p Hc Hp. rewrite (coupling_agree _ _ _ _ _ Ax Az nu G c p Hc Hp). apply Hcouple; assumption.
      + intros loss Hd. exact (dissipates_agree _ _ _ _ _ _ _ _ _ Ae Ax Az Am loss Hd).
      + intros E H. exact (maxwell_agree _ _ _ _ _ _ _ _ _ Ae Ax Az Am u (sampled g) k0 E H J0 J eq_refl AJ).
    - intros a Hb. assert (rshape (o_grid (operators s)) = points_of g /\ o_vectorial (operators s) = true) as (S1 & S2).
      { rewrite Eo. unfold Choice_Model.construct. destruct (choose _ _ _ _ _ _ _ _ _ _). split; reflexivity. }
      destruct (put_E_values s true (points_of g) a S2 S1) as (s' & Es' & Ew' & Eo' & Ep' & Ef').
      + apply (points_positive g (proj1 Hg)).
      + rewrite Ew. lra.
      + exact Hb.
      + exists s'. unfold new_solution_from. rewrite Es. cbn [bind]. rewrite Ew in Ew', Ef'. rewrite Eo in Eo'. exact (conj Es' (conj Ew' (conj Ep' (conj Eo' Ef')))).
  Qed.
  Lemma wm_loop fuel a s rtol maxiter : new_solution_from u eps settled thick q a = Ok s ->
    solve_from u eps settled thick fuel q a NoneGiven rtol maxiter w = Ok (loop fuel (limits maxiter rtol) true w s).
  Proof. intros E. unfold solve_from. rewrite E. reflexivity. Qed.
  Lemma wm_ends a E H rtol maxiter : dissipates (points_of g) (plus_isotropic e chi) x z m 0 -> problem E H J ->
    (exists c p, (c < 3)%nat /\ CSum.inside (points_of g) p /\ J c p <> 0) -> Array_Spec.broadcasts a (3 :: points_of g)%nat ->
    (vnorm2 3 (points_of g) (fun c p => bget a (c :: p) - E c p)%C <= vnorm2 3 (points_of g) E)%R -> (0 < rtol)%R ->
    exists fuel s, solve_from u eps settled thick fuel q a NoneGiven rtol maxiter w = Ok (Some (Returned w s)) /\ wavenumber s = k0 /\ limit_reached maxiter rtol s.
  Proof.
    intros Hd HM (c & p & Hc & Hp & HS) Hb Hn Ht. destruct wm_parts as (e0 & x0 & z0 & m0 & J0 & (Hs & Hi & M0 & C0 & D0 & AJ & MA) & HP).
    destruct (HP a Hb) as (s & Es & Ew & Ep & Eo & Ef).
    pose proof (wr_moves eps u (sampled g) k0 e0 x0 z0 m0 nu settled thick J0 kappa He H1 Hu Hs Hk0 Hi M0 Hprec C0 c p Hc Hp ltac:(rewrite (AJ c p Hc Hp); exact HS)) as Hmv.
    destruct (scaled_distance true (k0 * k0) (points_of g) _ (fun c p => bget a (c :: p)) E Ef) as (D1 & D2).
    destruct (wr_returns eps u (sampled g) k0 e0 x0 z0 m0 nu settled thick J0 kappa 0 He H1 Hu Hs Hk0 Hi M0 Hprec C0 (D0 0%R Hd) (Rle_refl 0) s Ew Eo Ep E H maxiter rtol w (proj2 (MA E H) HM) Hmv) as (fuel & y & EL & En); [|exact Ht|].
    { destruct (mp_shape eps u (sampled g) k0 e0 x0 z0 m0 settled thick J0 M0) as (S1 & S2). rewrite S1, S2. cbn [rshape sampled]. rewrite D1, D2. apply Rmult_le_compat_l; [nra|exact Hn]. }
    exists fuel, y. rewrite (wm_loop fuel a s rtol maxiter Es), EL. split; [reflexivity|]. split.
    - destruct En as (i & Hii & _). apply Hii.
    - apply (ended_limit _ _ _ _ _ _ En).
  Qed.
  Lemma wm_any a E H rtol maxiter : dissipates (points_of g) (plus_isotropic e chi) x z m 0 -> problem E H J ->
    (exists c p, (c < 3)%nat /\ CSum.inside (points_of g) p /\ J c p <> 0) -> Array_Spec.broadcasts a (3 :: points_of g)%nat -> (0 < rtol)%R ->
    exists fuel s, (solve_from u eps settled thick fuel q a NoneGiven rtol maxiter w = Ok (Some (Returned w s)) /\ wavenumber s = k0 /\ limit_reached maxiter rtol s) \/
      (solve_from u eps settled thick fuel q a NoneGiven rtol maxiter w = Ok (Some (Raised w s ZeroDivisionError)) /\ vagree 3 (points_of g) (get_E s) (fun _ _ => 0)).
  Proof.
    intros Hd HM (c & p & Hc & Hp & HS) Hb Ht. destruct wm_parts as (e0 & x0 & z0 & m0 & J0 & (Hs & Hi & M0 & C0 & D0 & AJ & MA) & HP).
    destruct (HP a Hb) as (s & Es & Ew & Ep & Eo & Ef).
    pose proof (wr_moves eps u (sampled g) k0 e0 x0 z0 m0 nu settled thick J0 kappa He H1 Hu Hs Hk0 Hi M0 Hprec C0 c p Hc Hp ltac:(rewrite (AJ c p Hc Hp); exact HS)) as Hmv.
    destruct (wr_finishes eps u (sampled g) k0 e0 x0 z0 m0 nu settled thick J0 kappa 0 He H1 Hu Hs Hk0 Hi M0 Hprec C0 (D0 0%R Hd) (Rle_refl 0) s Ew Eo Ep E H maxiter rtol w (proj2 (MA E H) HM) Hmv Ht)
      as (fuel & [(y & EL & En)|(y & EL & i & (Xw & Xo & Xf & _) & Hz & _)]).
    - exists fuel, y. left. rewrite (wm_loop fuel a s rtol maxiter Es), EL. split; [reflexivity|]. split.
      + destruct En as (i & Hii & _). apply Hii.
      + apply (ended_limit _ _ _ _ _ _ En).
    - exists fuel, y. right. rewrite (wm_loop fuel a s rtol maxiter Es), EL. split; [reflexivity|].
      destruct (mp_shape eps u (sampled g) k0 e0 x0 z0 m0 settled thick J0 M0) as (S1 & S2). rewrite S1, S2 in Hz. apply vnorm2_zero in Hz. intros c' p' Hc' Hp'. unfold get_E, electric_field. rewrite Xf.
      rewrite (Hz c' p' Hc' Hp'). unfold Cdiv. ring.
  Qed.
  Lemma wm_closer a E H rtol maxiter fuel w' s : dissipates (points_of g) (plus_isotropic e chi) x z m 0 -> problem E H J ->
    Array_Spec.broadcasts a (3 :: points_of g)%nat -> (0 <= rtol)%R -> solve_from u eps settled thick fuel q a NoneGiven rtol maxiter w = Ok (Some (Returned w' s)) ->
    (vnorm2 3 (points_of g) (fun c p => get_E s c p - E c p)%C <= vnorm2 3 (points_of g) (fun c p => bget a (c :: p) - E c p)%C)%R.
  Proof.
    intros Hd HM Hb Ht Er. destruct wm_parts as (e0 & x0 & z0 & m0 & J0 & (Hs & Hi & M0 & C0 & D0 & AJ & MA) & HP).
    destruct (HP a Hb) as (s0 & Es & Ew & Ep & Eo & Ef). rewrite (wm_loop fuel a s0 rtol maxiter Es) in Er. injection Er as Er.
    destruct (wr_closer eps u (sampled g) k0 e0 x0 z0 m0 nu settled thick J0 kappa 0 He H1 Hu Hs Hk0 Hi M0 Hprec C0 (D0 0%R Hd) (Rle_refl 0) s0 Ew Eo Ep E H maxiter rtol (proj2 (MA E H) HM) Ht fuel w w' s Er) as (Xw & _ & HC).
    destruct (mp_shape eps u (sampled g) k0 e0 x0 z0 m0 settled thick J0 M0) as (S1 & S2). rewrite S1, S2 in HC.
    destruct (scaled_distance true (k0 * k0) (points_of g) _ (fun c p => bget a (c :: p)) E Ef) as (D1 & _).
    destruct (scaled_distance true (k0 * k0) (points_of g) (Run_Model.field s) (get_E s) E) as (D2 & _).
    { intros c p _ _. unfold get_E, electric_field. rewrite Xw. field. intros Z. apply RtoC_inj in Z. nra. }
    cbn [rshape sampled] in HC. rewrite D1, D2 in HC. apply Rmult_le_reg_l in HC; [exact HC|]. assert (0 < k0 * k0)%R by nra. nra.
  Qed.
  Lemma wm_accurate loss : (0 < loss)%R -> dissipates (points_of g) (plus_isotropic e chi) x z m loss ->
    exists E H K, problem E H J /\
      (forall E' H', problem E' H' J -> vagree 3 (points_of g) E' E /\ vagree 3 (points_of g) H' H) /\
      forall a fuel rtol w' s, Array_Spec.broadcasts a (3 :: points_of g)%nat -> (0 < rtol)%R -> (exists c p, (c < 3)%nat /\ CSum.inside (points_of g) p /\ J c p <> 0) ->
        solve_from u eps settled thick fuel q a NoneGiven rtol None w = Ok (Some (Returned w' s)) ->
        (magnitude s (fun c p => get_E s c p - E c p)%C <= K * rtol * magnitude s (get_E s))%R /\
        (magnitude s (fun c p => magnetizing_field u (operators s) (wavenumber s) (field s) c p - H c p)%C <= K * rtol * magnitude s (get_E s))%R.
  Proof.
    intros Hl Hd. destruct wm_parts as (e0 & x0 & z0 & m0 & J0 & (Hs & Hi & M0 & C0 & D0 & AJ & MA) & HP).
    destruct (wr_error_limit eps u (sampled g) k0 e0 x0 z0 m0 nu settled thick J0 kappa loss He H1 Hu Hs Hk0 Hi M0 Hprec C0 (D0 loss Hd) (Rlt_le _ _ Hl) Hl) as (E & H & K & HM & HU & HK).
    exists E, H, K. split; [apply MA, HM|]. split; [intros E' H' HM'; apply HU, MA, HM'|]. intros a fuel rtol w' y Hb Ht (c & p & Hc & Hp & HS) Er.
    destruct (HP a Hb) as (s & Es & Ew & Ep & Eo & Ef). rewrite (wm_loop fuel a s rtol None Es) in Er. injection Er as Er.
    pose proof (wr_moves eps u (sampled g) k0 e0 x0 z0 m0 nu settled thick J0 kappa He H1 Hu Hs Hk0 Hi M0 Hprec C0 c p Hc Hp ltac:(rewrite (AJ c p Hc Hp); exact HS)) as Hmv.
    destruct (wr_finishes eps u (sampled g) k0 e0 x0 z0 m0 nu settled thick J0 kappa loss He H1 Hu Hs Hk0 Hi M0 Hprec C0 (D0 loss Hd) (Rlt_le _ _ Hl) s Ew Eo Ep E H None rtol w HM Hmv Ht) as (fuel' & [(x' & EL & Hx)|(x' & EL & _)]);
      pose proof (loop_more _ _ _ _ _ _ Er fuel') as P; pose proof (loop_more _ _ _ _ _ _ EL fuel) as Q; rewrite Nat.add_comm, P in Q; [|discriminate Q].
    injection Q as _ ->. exact (HK _ rtol x' Ht Hx).
  Qed.
  Lemma wm_never loss : (0 < loss)%R -> dissipates (points_of g) (plus_isotropic e chi) x z m loss -> (forall c p, (c < 3)%nat -> CSum.inside (points_of g) p -> J c p = 0) ->
    exists tol, (0 < tol)%R /\ forall a rtol fuel w' s, Array_Spec.broadcasts a (3 :: points_of g)%nat -> (exists c p, (c < 3)%nat /\ CSum.inside (points_of g) p /\ bget a (c :: p) <> 0) -> (0 < rtol < tol)%R ->
      solve_from u eps settled thick fuel q a NoneGiven rtol None w <> Ok (Some (Returned w' s)).
  Proof.
    intros Hl Hd HJ0. destruct wm_parts as (e0 & x0 & z0 & m0 & J0 & (Hs & Hi & M0 & C0 & D0 & AJ & MA) & HP).
    pose proof (wr_tolerance eps u (sampled g) k0 e0 x0 z0 m0 settled thick J0 loss He H1 Hs Hk0 M0 Hprec Hl) as Htol.
    match type of Htol with (0 < ?k)%R => exists (k / 4)%R end. split; [lra|]. intros a rtol fuel w' y Hb (c & p & Hc & Hp & Ha) Hrt Er.
    destruct (HP a Hb) as (s & Es & Ew & Ep & Eo & Ef). rewrite (wm_loop fuel a s rtol None Es) in Er. injection Er as Er.
    destruct (mp_shape eps u (sampled g) k0 e0 x0 z0 m0 settled thick J0 M0) as (S1 & S2).
    assert (maxwell u (sampled g) k0 e0 x0 z0 m0 none (faraday_H u (sampled g) k0 z0 nu none) J0) as HM0.
    { apply (maxwell_second_order u (sampled g) k0 e0 x0 z0 m0 nu Hu Hs Hi). split; [intros ? ? _ _; reflexivity|]. intros c' p' Hc' Hp'. rewrite second_order_none. unfold driving. rewrite (AJ c' p' Hc' Hp'), (HJ0 c' p' Hc' Hp'). ring. }
    pose proof (wr_still eps u (sampled g) k0 e0 x0 z0 m0 nu settled thick J0 kappa He H1 Hu Hs Hk0 Hi M0 Hprec C0 _ _ HM0) as HZ.
    refine (wr_never eps u (sampled g) k0 e0 x0 z0 m0 nu settled thick J0 kappa loss He H1 Hs Hk0 Hi M0 Hprec C0 (D0 loss Hd) (Rlt_le _ _ Hl) s Ew Eo Ep rtol Hl _ Hrt _ fuel w w' y Er).
    - rewrite (none_is (fun c p => RtoC (k0 * k0) * none c p)) in HZ by (intros; unfold none; ring). exact HZ.
    - intros Z. apply Ha. apply norm_zero_agree in Z. rewrite S1, S2 in Z. specialize (Z c p Hc Hp). rewrite (Ef c p Hc Hp) in Z.
      cbn beta in Z. transitivity (RtoC (k0 * k0) * bget a (c :: p) / RtoC (k0 * k0)); [field; intros E; apply RtoC_inj in E; nra|]. rewrite Z. unfold Cdiv. ring.
  Qed.
End Results.
