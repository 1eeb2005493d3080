(** solve from an initial field. *)
From Coq Require Import Reals Lra Lia List Arith ZArith Bool.
Require Import Verif.Base Verif.Num Verif.Grid_Model Verif.Grid_Spec Verif.Grid_Proofs Verif.Bound_Model Verif.Setup_Model Verif.Entry_Model Verif.Entry_Spec Verif.Entry_Proofs.
Require Import Verif.Array_Glue.
Require Import Verif.Cplx Verif.CSum Verif.Field Verif.Fourier_Model Verif.Fourier_Spec Verif.Vec_Model Verif.Vec_Spec Verif.Vec_Proofs Verif.Vec_Grid Verif.Solver_Model Verif.Solver_Spec Verif.Solver_Proofs.
Require Import Verif.Derived_Model Verif.Derived_Spec Verif.Choice_Model Verif.Choice_Proofs Verif.Choice_Construct Verif.Array_Model Verif.Array_Spec.
Require Import Verif.Material_Model Verif.Material_Spec Verif.Solver_Convergence Verif.Solver_Limit Verif.Solver_Choice Verif.Choice_Gain Verif.Run_Model Verif.Run_Spec Verif.Run_Proofs Verif.Run_Solve Verif.Run_Zero Verif.Run_Glue Verif.Run_Converge.
Require Import Verif.Whole_Model Verif.Whole_Spec Verif.Whole_Proofs Verif.Whole_Results Verif.Warm_Model.
Import ListNotations.
Local Open Scope R_scope.
Local Open Scope C_scope.

Lemma put_E_values s (v : bool) gs a : o_vectorial (operators s) = v -> rshape (o_grid (operators s)) = gs -> List.Forall (fun n => 0 < n)%nat gs -> wavenumber s <> 0%R ->
  let n := (if v then 3 else 1)%nat in Array_Spec.broadcasts a (n :: gs) ->
  exists s', put_E s a = Ok s' /\ wavenumber s' = wavenumber s /\ operators s' = operators s /\ prev_norm s' = Inf /\
    vagree n gs (Run_Model.field s') (fun c p => RtoC (wavenumber s * wavenumber s) * bget a (c :: p)).
Proof.
  intros Hv Hgs Hp Hk n Hb. destruct (assign_E_value v gs (PyFloat (wavenumber s)) (VArray a) a Hp Hk (ex_intro _ _ (conj (times_square_array _ _) eq_refl)) Hb) as (out & E1 & _ & E2).
  unfold put_E. cbv zeta. rewrite Hv, Hgs, E1. cbn [bind]. eexists. refine (conj eq_refl (conj eq_refl (conj eq_refl (conj eq_refl _)))). intros c p Hc Hi. cbn [Run_Model.field set_prev_norm set_field].
  specialize (E2 c p Hc Hi). cbn [aget Array_Model.get_E] in E2. rewrite <- E2. field. intros E. apply Hk. apply RtoC_inj in E. nra.
Qed.
(** A source makes the first change. *)
Lemma source_moves (v : bool) g k0 (alpha : C) beta eps mu (S : vfield) rho c p : solvable v g k0 -> fits v eps -> fits v mu -> (0 < snd alpha)%R -> (0 < beta)%R ->
  let n := (if v then 3 else 1)%nat in deviates n (rshape g) eps beta (fst alpha) (rho * snd alpha) -> (0 <= rho < 1)%R ->
  (c < n)%nat -> CSum.inside (rshape g) p -> S c p <> 0 ->
  vnorm2 n (rshape g) (update (prepare (scaled k0 g) v false alpha beta eps tzero tzero mu S) none) <> 0%R.
Proof.
  intros Hs Hf Hm Ha Hb n Hd Hr Hc Hp HS HN. apply vnorm2_zero in HN. apply HS.
  pose proof (proj1 (si_fixed v g k0 alpha beta eps mu S Hs Hf Hm Ha Hb rho Hd Hr none) HN) as HE. specialize (HE c p Hc Hp). cbn beta in HE. rewrite <- HE.
  assert (electric_field k0 none = none) as -> by (apply none_is; intros c' p'; unfold electric_field, none, Cdiv; ring).
  rewrite tapply_none. assert (curl_curl_op v g none c p = 0) as ->; [|ring]. unfold curl_curl_op. destruct v.
  - rewrite (none_is (curl g 3 none)) by apply curl_none. apply curl_none.
  - unfold laplacian. rewrite convolve_none; [ring|]. intros F HF c' k. rewrite HF. ring.
Qed.

Lemma curl_curl_none (v : bool) g c p : curl_curl_op v g none c p = 0.
Proof.
  unfold curl_curl_op. destruct v.
  - rewrite (none_is (curl g 3 none)) by apply curl_none. apply curl_none.
  - unfold laplacian. rewrite convolve_none; [ring|]. intros F HF c' k. rewrite HF. ring.
Qed.

Section Results.
  Variables (W : Type) (u : si) (eps : R) (settled : R * R) (thick : option R) (q : request) (g : grid RN) (crd : nat -> list R) (v : bool) (k0 m : R)
    (src : vfield) (t : tensor) (chi : list nat -> C) (w : W).
  Let n := (if v then 3 else 1)%nat.
  Hypothesis He : (0 < eps)%R.
  Hypothesis H1 : (2 * eps <= 1)%R.
  Hypothesis Hm : (0 < m)%R.
  Hypothesis Hq : (800 * sqrt eps * (m * m) < 1)%R.
  Hypothesis Hc : (0 < c_light u)%R.
  Hypothesis Hgrid : q_grid q = AGrid g.
  Hypothesis Hg : Entry_Spec.spatial g.
  Hypothesis Hdim : v = true -> (ndim RN g <= 3)%nat.
  Hypothesis Hcrd : forall i, (i < ndim RN g)%nat -> coordinates g i = Ok (crd i).
  Hypothesis Hxi : q_xi q = GivenArray (number 0).
  Hypothesis Hzeta : q_zeta q = GivenArray (number 0).
  Hypothesis Hmu : q_mu q = GivenArray (number (RtoC m)).
  Hypothesis Hk : asked_wavenumber u q k0.
  Hypothesis Hk0 : k0 <> 0%R.
  Hypothesis Hkind : asked_kind g q v.
  Hypothesis Hsrc : asked_source u g crd k0 q v src.
  Hypothesis Hmed : asked_medium g crd q t.
  Hypothesis Hchi : asked_boundary g q chi.
  Hypothesis Hfit : fits v t.

  Lemma warm_parts loss a : (0 <= loss)%R -> absorbs n (points_of g) (plus_isotropic t chi) loss -> Array_Spec.broadcasts a (n :: points_of g) ->
    exists s e0 S0 alpha rho, new_solution_from u eps settled thick q a = Ok s /\ wavenumber s = k0 /\ prev_norm s = Inf /\
      operators s = prepare (scaled k0 (sampled g)) v false alpha (/ m) e0 tzero tzero (tuniform (RtoC m)) S0 /\
      vagree n (points_of g) (Run_Model.field s) (fun c p => RtoC (k0 * k0) * bget a (c :: p)) /\
      fits v e0 /\ (0 < snd alpha)%R /\ (0 <= rho < 1)%R /\ deviates n (points_of g) e0 (/ m) (fst alpha) (rho * snd alpha) /\ absorbs n (points_of g) e0 loss /\
      vagree n (points_of g) S0 src /\ (forall E, wave_equation v (sampled g) k0 (/ m) e0 E S0 <-> wave_equation v (sampled g) k0 (/ m) (plus_isotropic t chi) E src).
  Proof.
    intros Hl Hab Hb. destruct (whole_solution u eps settled thick q g crd v k0 m src t chi Hc Hgrid Hg Hcrd Hxi Hzeta Hmu Hk Hkind Hsrc Hmed Hchi Hfit) as (s & e0 & S0 & Es & Ew & Ef & Ep & Eo & Ae & AS).
    fold n in AS. pose proof (fits_agree v _ _ _ Ae (fits_plus v t chi Hfit)) as F0. pose proof (agree_absorbs v e0 _ _ F0 Ae loss Hab) as L0.
    destruct (construct_alpha eps (sampled g) k0 v e0 m settled thick S0 He H1 F0 (absorbs_weaken _ _ _ _ 0 Hl L0) Hm Hq) as (alpha & rho & Ea & Pa & Hr & Hd). rewrite Ea in Eo.
    destruct (put_E_values s v (points_of g) a) as (s' & Es' & Ew' & Eo' & Ep' & Ef').
    - rewrite Eo. reflexivity.
    - rewrite Eo. reflexivity.
    - apply (points_positive g (proj1 Hg)).
    - rewrite Ew. exact Hk0.
    - exact Hb.
    - exists s', e0, S0, alpha, rho. unfold new_solution_from. rewrite Es. cbn [bind]. rewrite Ew in Ew', Ef'. rewrite Eo in Eo'.
      refine (conj Es' (conj Ew' (conj Ep' (conj Eo' (conj Ef' (conj F0 (conj Pa (conj Hr (conj Hd (conj L0 (conj AS _))))))))))).
      intros E. exact (agree_wave v e0 _ _ F0 Ae (sampled g) k0 (/ m) E S0 src eq_refl AS).
  Qed.
  Lemma solve_from_loop fuel a s rtol maxiter : new_solution_from u eps settled thick q a = Ok s ->
    solve_from u eps settled thick fuel q a NoneGiven rtol maxiter w = Ok (loop fuel (limits maxiter rtol) true w s).
  Proof. intros E. unfold solve_from. rewrite E. reflexivity. Qed.
  Lemma scaled_distance (k : R) s (F A E : vfield) : vagree n s F (fun c p => RtoC k * A c p) ->
    vnorm2 n s (fun c p => F c p - RtoC k * E c p)%C = (k * k * vnorm2 n s (fun c p => A c p - E c p)%C)%R /\ vnorm2 n s (fun c p => RtoC k * E c p)%C = (k * k * vnorm2 n s E)%R.
  Proof.
    intros H. assert (Cmod (RtoC k) * Cmod (RtoC k) = k * k)%R as Ek by (rewrite Cmod_R, <- Rabs_mult; apply Rabs_pos_eq; nra). split.
    - rewrite (vagree_vnorm2 n s _ (fun c p => RtoC k * (A c p - E c p))).
      + rewrite vnorm2_scal, Ek. reflexivity.
      + intros c p Hc' Hp. rewrite (H c p Hc' Hp). ring.
    - rewrite vnorm2_scal, Ek. reflexivity.
  Qed.

  Lemma warm_ends a E rtol maxiter : absorbs n (points_of g) (plus_isotropic t chi) 0 -> wave_equation v (sampled g) k0 (/ m) (plus_isotropic t chi) E src ->
    (exists c p, (c < n)%nat /\ CSum.inside (points_of g) p /\ src c p <> 0) -> Array_Spec.broadcasts a (n :: points_of g) ->
    (vnorm2 n (points_of g) (fun c p => bget a (c :: p) - E c p)%C <= vnorm2 n (points_of g) E)%R -> (0 < rtol)%R ->
    exists fuel s, solve_from u eps settled thick fuel q a NoneGiven rtol maxiter w = Ok (Some (Returned w s)) /\ wavenumber s = k0 /\ limit_reached maxiter rtol s.
  Proof.
    intros Hl HE (c & p & Hcn & Hp & HS) Hb Hn Ht. destruct (warm_parts 0 a (Rle_refl 0) Hl Hb) as (s & e0 & S0 & alpha & rho & Es & Ew & Ep & Eo & Ef & F0 & Pa & Hr & Hd & L0 & AS & HW).
    pose proof (whole_solvable g v k0 Hg Hdim Hk0) as Hs.
    pose proof (source_moves v (sampled g) k0 alpha (/ m) e0 (tuniform (RtoC m)) S0 rho c p Hs F0 I Pa (Rinv_0_lt_compat m Hm) Hd Hr Hcn Hp ltac:(rewrite (AS c p Hcn Hp); exact HS)) as Hmv.
    destruct (scaled_distance (k0 * k0) (points_of g) _ (fun c p => bget a (c :: p)) E Ef) as (D1 & D2).
    destruct (si_returns v (sampled g) k0 alpha (/ m) e0 (tuniform (RtoC m)) S0 Hs F0 I Pa (Rinv_0_lt_compat m Hm) 0 rho L0 Hd Hr s Ew Eo Ep E maxiter rtol w (Rle_refl 0) (proj2 (HW E) HE) Hmv) as (fuel & x & EL & En); [|exact Ht|].
    { fold n. cbn [rshape sampled]. rewrite D1, D2. apply Rmult_le_compat_l; [nra|exact Hn]. }
    exists fuel, x. rewrite (solve_from_loop fuel a s rtol maxiter Es), EL. split; [reflexivity|]. split.
    - destruct En as (i & Hi & _). apply Hi.
    - apply (ended_limit _ _ _ _ _ _ En).
  Qed.
  Lemma warm_any a E rtol maxiter : absorbs n (points_of g) (plus_isotropic t chi) 0 -> wave_equation v (sampled g) k0 (/ m) (plus_isotropic t chi) E src ->
    (exists c p, (c < n)%nat /\ CSum.inside (points_of g) p /\ src c p <> 0) -> Array_Spec.broadcasts a (n :: points_of g) -> (0 < rtol)%R ->
    exists fuel s, (solve_from u eps settled thick fuel q a NoneGiven rtol maxiter w = Ok (Some (Returned w s)) /\ wavenumber s = k0 /\ limit_reached maxiter rtol s) \/
      (solve_from u eps settled thick fuel q a NoneGiven rtol maxiter w = Ok (Some (Raised w s ZeroDivisionError)) /\ vagree n (points_of g) (get_E s) (fun _ _ => 0)).
  Proof.
    intros Hl HE (c & p & Hcn & Hp & HS) Hb Ht. destruct (warm_parts 0 a (Rle_refl 0) Hl Hb) as (s & e0 & S0 & alpha & rho & Es & Ew & Ep & Eo & Ef & F0 & Pa & Hr & Hd & L0 & AS & HW).
    pose proof (whole_solvable g v k0 Hg Hdim Hk0) as Hs.
    pose proof (source_moves v (sampled g) k0 alpha (/ m) e0 (tuniform (RtoC m)) S0 rho c p Hs F0 I Pa (Rinv_0_lt_compat m Hm) Hd Hr Hcn Hp ltac:(rewrite (AS c p Hcn Hp); exact HS)) as Hmv.
    destruct (si_finishes v (sampled g) k0 alpha (/ m) e0 (tuniform (RtoC m)) S0 Hs F0 I Pa (Rinv_0_lt_compat m Hm) 0 rho L0 Hd Hr s Ew Eo Ep E maxiter rtol w (Rle_refl 0) (proj2 (HW E) HE) Hmv Ht) as (fuel & [(x & EL & En)|(x & EL & i & (Xw & Xo & Xf & _) & Hz & _)]).
    - exists fuel, x. left. rewrite (solve_from_loop fuel a s rtol maxiter Es), EL. split; [reflexivity|]. split.
      + destruct En as (i & Hi & _). apply Hi.
      + apply (ended_limit _ _ _ _ _ _ En).
    - exists fuel, x. right. rewrite (solve_from_loop fuel a s rtol maxiter Es), EL. split; [reflexivity|]. apply vnorm2_zero in Hz. intros c' p' Hc' Hp'. unfold get_E, electric_field. rewrite Xf.
      rewrite (Hz c' p' Hc' Hp'). unfold Cdiv. ring.
  Qed.
  Lemma warm_closer a E rtol maxiter fuel w' s : absorbs n (points_of g) (plus_isotropic t chi) 0 -> wave_equation v (sampled g) k0 (/ m) (plus_isotropic t chi) E src ->
    Array_Spec.broadcasts a (n :: points_of g) -> (0 <= rtol)%R -> solve_from u eps settled thick fuel q a NoneGiven rtol maxiter w = Ok (Some (Returned w' s)) ->
    (vnorm2 n (points_of g) (fun c p => get_E s c p - E c p)%C <= vnorm2 n (points_of g) (fun c p => bget a (c :: p) - E c p)%C)%R.
  Proof.
    intros Hl HE Hb Ht Er. destruct (warm_parts 0 a (Rle_refl 0) Hl Hb) as (s0 & e0 & S0 & alpha & rho & Es & Ew & Ep & Eo & Ef & F0 & Pa & Hr & Hd & L0 & AS & HW).
    pose proof (whole_solvable g v k0 Hg Hdim Hk0) as Hs. rewrite (solve_from_loop fuel a s0 rtol maxiter Es) in Er. injection Er as Er.
    destruct (si_closer v (sampled g) k0 alpha (/ m) e0 (tuniform (RtoC m)) S0 Hs F0 I Pa (Rinv_0_lt_compat m Hm) 0 rho L0 Hd Hr s0 Ew Eo Ep E maxiter rtol (Rle_refl 0) (proj2 (HW E) HE) Ht fuel w w' s Er) as (Xw & _ & HC).
    destruct (scaled_distance (k0 * k0) (points_of g) _ (fun c p => bget a (c :: p)) E Ef) as (D1 & _).
    destruct (scaled_distance (k0 * k0) (points_of g) (Run_Model.field s) (get_E s) E) as (D2 & _).
    { intros c p _ _. unfold get_E, electric_field. rewrite Xw. field. intros Z. apply Hk0. apply RtoC_inj in Z. nra. }
    fold n in HC. cbn [rshape sampled] in HC. rewrite D1, D2 in HC. apply Rmult_le_reg_l in HC; [exact HC|]. assert (0 < k0 * k0)%R by nra. nra.
  Qed.
  Lemma warm_accurate loss : (0 < loss)%R -> absorbs n (points_of g) (plus_isotropic t chi) loss ->
    exists E K, wave_equation v (sampled g) k0 (/ m) (plus_isotropic t chi) E src /\
      (forall E', wave_equation v (sampled g) k0 (/ m) (plus_isotropic t chi) E' src -> vagree n (points_of g) E' E) /\
      forall a fuel rtol w' s, Array_Spec.broadcasts a (n :: points_of g) -> (0 < rtol)%R -> (exists c p, (c < n)%nat /\ CSum.inside (points_of g) p /\ src c p <> 0) ->
        solve_from u eps settled thick fuel q a NoneGiven rtol None w = Ok (Some (Returned w' s)) ->
        (magnitude s (fun c p => get_E s c p - E c p)%C <= K * rtol * magnitude s (get_E s))%R.
  Proof.
    intros Hl Hab. pose proof (whole_solvable g v k0 Hg Hdim Hk0) as Hs.
    destruct (whole_solution u eps settled thick q g crd v k0 m src t chi Hc Hgrid Hg Hcrd Hxi Hzeta Hmu Hk Hkind Hsrc Hmed Hchi Hfit) as (s & e0 & S0 & Es & Ew & Ef & Ep & Eo & Ae & AS).
    fold n in AS. pose proof (fits_agree v _ _ _ Ae (fits_plus v t chi Hfit)) as F0. pose proof (agree_absorbs v e0 _ _ F0 Ae loss Hab) as L0.
    destruct (construct_alpha eps (sampled g) k0 v e0 m settled thick S0 He H1 F0 (absorbs_weaken _ _ _ _ 0 (Rlt_le _ _ Hl) L0) Hm Hq) as (alpha & rho & Ea & Pa & Hr & Hd). rewrite Ea in Eo.
    pose proof (fun E => agree_wave v e0 _ _ F0 Ae (sampled g) k0 (/ m) E S0 src eq_refl AS) as HW.
    destruct (si_error_limit v (sampled g) k0 alpha (/ m) e0 (tuniform (RtoC m)) S0 Hs F0 I Pa (Rinv_0_lt_compat m Hm) loss rho L0 Hd Hr Hl) as (E & K & _ & HE & Hu & HK).
    exists E, K. split; [apply HW, HE|]. split; [intros E' HE'; apply Hu, HW, HE'|]. intros a fuel rtol w' y Hb Ht (c & p & Hcn & Hp & HS) Er.
    destruct (put_E_values s v (points_of g) a) as (s' & Es' & Ew' & Eo' & Ep' & Ef'); [rewrite Eo; reflexivity|rewrite Eo; reflexivity|apply (points_positive g (proj1 Hg))|rewrite Ew; exact Hk0|exact Hb|].
    assert (new_solution_from u eps settled thick q a = Ok s') as En by (unfold new_solution_from; rewrite Es; exact Es').
    rewrite (solve_from_loop fuel a s' rtol None En) in Er.
    pose proof (source_moves v (sampled g) k0 alpha (/ m) e0 (tuniform (RtoC m)) S0 rho c p Hs F0 I Pa (Rinv_0_lt_compat m Hm) Hd Hr Hcn Hp ltac:(rewrite (AS c p Hcn Hp); exact HS)) as Hmv.
    rewrite Ew in Ew'. rewrite Eo in Eo'.
    destruct (si_finishes v (sampled g) k0 alpha (/ m) e0 (tuniform (RtoC m)) S0 Hs F0 I Pa (Rinv_0_lt_compat m Hm) loss rho L0 Hd Hr s' Ew' Eo' Ep' E None rtol w (Rlt_le _ _ Hl) HE Hmv Ht) as (fuel' & [(x & EL & Hx)|(x & EL & _)]);
      injection Er as Er; pose proof (loop_more _ _ _ _ _ _ Er fuel') as P; pose proof (loop_more _ _ _ _ _ _ EL fuel) as Q; rewrite Nat.add_comm, P in Q; [|discriminate Q].
    injection Q as _ ->. exact (HK _ rtol x Ht Hx).
  Qed.
  Lemma warm_never loss : (0 < loss)%R -> absorbs n (points_of g) (plus_isotropic t chi) loss -> (forall c p, (c < n)%nat -> CSum.inside (points_of g) p -> src c p = 0) ->
    exists tol, (0 < tol)%R /\ forall a rtol fuel w' s, Array_Spec.broadcasts a (n :: points_of g) -> (exists c p, (c < n)%nat /\ CSum.inside (points_of g) p /\ bget a (c :: p) <> 0) -> (0 < rtol < tol)%R ->
      solve_from u eps settled thick fuel q a NoneGiven rtol None w <> Ok (Some (Returned w' s)).
  Proof.
    intros Hl Hab H0. pose proof (whole_solvable g v k0 Hg Hdim Hk0) as Hs.
    destruct (whole_solution u eps settled thick q g crd v k0 m src t chi Hc Hgrid Hg Hcrd Hxi Hzeta Hmu Hk Hkind Hsrc Hmed Hchi Hfit) as (s & e0 & S0 & Es & Ew & Ef & Ep & Eo & Ae & AS).
    fold n in AS. pose proof (fits_agree v _ _ _ Ae (fits_plus v t chi Hfit)) as F0. pose proof (agree_absorbs v e0 _ _ F0 Ae loss Hab) as L0.
    destruct (construct_alpha eps (sampled g) k0 v e0 m settled thick S0 He H1 F0 (absorbs_weaken _ _ _ _ 0 (Rlt_le _ _ Hl) L0) Hm Hq) as (alpha & rho & Ea & Pa & Hr & Hd). rewrite Ea in Eo.
    assert (wave_equation v (sampled g) k0 (/ m) e0 none S0) as W0.
    { intros c p Hcn Hp. rewrite (AS c p Hcn Hp), (H0 c p Hcn Hp), tapply_none, curl_curl_none. ring. }
    pose proof (si_still v (sampled g) k0 alpha (/ m) e0 (tuniform (RtoC m)) S0 Hs F0 I Pa (Rinv_0_lt_compat m Hm) none W0) as Hz.
    rewrite (none_is (fun c p => RtoC (k0 * k0) * none c p)) in Hz by (intros; unfold none; ring).
    exists (Rmin (2 * (loss / (/ m * snd alpha))) (1 - rho * rho) / 4)%R. split; [apply (si_tolerance alpha (/ m) Pa (Rinv_0_lt_compat m Hm) loss rho Hr Hl)|]. intros a rtol fuel w' y Hb (c & p & Hcn & Hp & Ha) Hrt Er.
    destruct (put_E_values s v (points_of g) a) as (s' & Es' & Ew' & Eo' & Ep' & Ef'); [rewrite Eo; reflexivity|rewrite Eo; reflexivity|apply (points_positive g (proj1 Hg))|rewrite Ew; exact Hk0|exact Hb|].
    assert (new_solution_from u eps settled thick q a = Ok s') as En by (unfold new_solution_from; rewrite Es; exact Es').
    rewrite (solve_from_loop fuel a s' rtol None En) in Er. injection Er as Er. rewrite Ew in Ew', Ef'. rewrite Eo in Eo'.
    refine (si_never v (sampled g) k0 alpha (/ m) e0 (tuniform (RtoC m)) S0 Hs F0 Pa (Rinv_0_lt_compat m Hm) loss rho L0 Hd Hr s' Ew' Eo' Ep' rtol Hl Hz Hrt _ fuel w w' y Er). intros Z. apply Ha. apply norm_zero_agree in Z. specialize (Z c p Hcn Hp). rewrite (Ef' c p Hcn Hp) in Z.
    cbn beta in Z. transitivity (RtoC (k0 * k0) * bget a (c :: p) / RtoC (k0 * k0)); [field; intros E; apply Hk0; apply RtoC_inj in E; nra|]. rewrite Z. unfold Cdiv. ring.
  Qed.
End Results.
