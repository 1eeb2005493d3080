(** solve returns the solution of the problem that its arguments state. *)
From Coq Require Import Reals Lra Lia List Arith ZArith Bool.
Require Import Verif.Base Verif.Num Verif.Grid_Model Verif.Grid_Spec Verif.Grid_Proofs Verif.Grid_Rebuild Verif.Grid_Ops Verif.Bound_Model Verif.Bound_Spec Verif.Setup_Model Verif.Entry_Model Verif.Entry_Spec Verif.Entry_Proofs.
Require Import Verif.Cplx Verif.CSum Verif.Field Verif.Fourier_Model Verif.Fourier_Spec Verif.Vec_Model Verif.Vec_Spec Verif.Vec_Proofs Verif.Vec_Grid Verif.Solver_Model Verif.Solver_Spec Verif.Solver_Proofs.
Require Import Verif.Derived_Model Verif.Derived_Spec Verif.Choice_Model Verif.Choice_Proofs Verif.Choice_Construct Verif.Array_Model Verif.Array_Spec.
Require Import Verif.Material_Model Verif.Material_Spec Verif.Solver_Choice Verif.Solver_Convergence Verif.Solver_Limit Verif.Choice_Gain Verif.Run_Model Verif.Run_Spec Verif.Run_Glue Verif.Run_Converge.
Require Import Verif.Whole_Model Verif.Whole_Spec Verif.Whole_Proofs.
Import ListNotations.
Local Open Scope R_scope.
Local Open Scope C_scope.

Section Agree.
  Variables (v : bool) (t t' : tensor) (s : list nat).
  Let n := (if v then 3 else 1)%nat.
  Hypothesis Hf : fits v t.
  Hypothesis Ht : tagree s t t'.
  Lemma agree_apply F c p : (c < n)%nat -> CSum.inside s p -> tapply t F c p = tapply t' F c p.
  Proof.
    apply tagree_apply; [exact Ht|]. destruct t; [right; exact I|left]. cbn in Hf. unfold n. rewrite Hf. reflexivity.
  Qed.
  Lemma agree_absorbs loss : absorbs n s t' loss -> absorbs n s t loss.
  Proof.
    intros H p w Hp. specialize (H p w Hp). erewrite csum_ext; [exact H|]. intros i Hi. cbn beta. rewrite agree_apply by assumption. reflexivity.
  Qed.
  Lemma agree_wave g k0 beta E S S' : rshape g = s -> vagree n s S S' -> wave_equation v g k0 beta t E S <-> wave_equation v g k0 beta t' E S'.
  Proof.
    intros Hg HS. unfold wave_equation. fold n. rewrite Hg. split; intros H c p Hc Hp; specialize (H c p Hc Hp).
    - rewrite <- (HS c p Hc Hp), <- H, agree_apply by assumption. reflexivity.
    - rewrite (HS c p Hc Hp), <- H, agree_apply by assumption. reflexivity.
  Qed.
End Agree.
Lemma fits_agree v s t t' : tagree s t t' -> fits v t' -> fits v t.
Proof. destruct t, t'; cbn; try contradiction; auto. Qed.
Lemma fits_plus v t chi : fits v t -> fits v (plus_isotropic t chi).
Proof. destruct t; exact (fun H => H). Qed.

Section Results.
  Variables (W : Type) (u : si) (eps : R) (settled : R * R) (thick : option R) (q : request) (g : grid RN) (crd : nat -> list R) (v : bool) (k0 m : R)
    (src : vfield) (t : tensor) (chi : list nat -> C) (w : W).
  Let n := (if v then 3 else 1)%nat.
  Hypothesis He : (0 < eps)%R.
  Hypothesis H1 : (2 * eps <= 1)%R.
  Hypothesis Hm : (0 < m)%R.
  Hypothesis Hq : (800 * sqrt eps * (m * m) < 1)%R.
  Hypothesis Hc : (0 < c_light u)%R.
  Hypothesis Hgrid : q_grid q = AGrid g.
  Hypothesis Hg : Entry_Spec.spatial g.
  Hypothesis Hdim : v = true -> (ndim RN g <= 3)%nat.
  Hypothesis Hcrd : forall i, (i < ndim RN g)%nat -> coordinates g i = Ok (crd i).
  Hypothesis Hxi : q_xi q = GivenArray (number 0).
  Hypothesis Hzeta : q_zeta q = GivenArray (number 0).
  Hypothesis Hmu : q_mu q = GivenArray (number (RtoC m)).
  Hypothesis Hk : asked_wavenumber u q k0.
  Hypothesis Hk0 : k0 <> 0%R.
  Hypothesis Hkind : asked_kind g q v.
  Hypothesis Hsrc : asked_source u g crd k0 q v src.
  Hypothesis Hmed : asked_medium g crd q t.
  Hypothesis Hchi : asked_boundary g q chi.
  Hypothesis Hfit : fits v t.

  Lemma whole_solvable : solvable v (sampled g) k0.
  Proof.
    split; [apply raster_of_proper; [apply Hg|]; intros i Hi; apply Hg; exact Hi|]. split; [exact Hk0|]. intros E. unfold rndim. cbn [rshape sampled]. rewrite points_length. exact (Hdim E).
  Qed.
  Lemma whole_ends E rtol maxiter : absorbs n (points_of g) (plus_isotropic t chi) 0 -> wave_equation v (sampled g) k0 (/ m) (plus_isotropic t chi) E src -> (0 < rtol)%R ->
    exists fuel s, solve u eps settled thick fuel q NoneGiven rtol maxiter w = Ok (Some (Returned w s)) /\ wavenumber s = k0 /\ limit_reached maxiter rtol s.
  Proof.
    intros Hl HE Ht. destruct (whole_solution u eps settled thick q g crd v k0 m src t chi Hc Hgrid Hg Hcrd Hxi Hzeta Hmu Hk Hkind Hsrc Hmed Hchi Hfit) as (s & e0 & S0 & Es & Ew & Ef & Ep & Eo & Ae & AS).
    fold n in AS. pose proof (fits_agree v _ _ _ Ae (fits_plus v t chi Hfit)) as F0. pose proof (agree_absorbs v e0 _ _ F0 Ae 0 Hl) as L0.
    pose proof (proj2 (agree_wave v e0 _ _ F0 Ae (sampled g) k0 (/ m) E S0 src eq_refl AS) HE) as W0.
    destruct (construct_alpha eps (sampled g) k0 v e0 m settled thick S0 He H1 F0 L0 Hm Hq) as (alpha & rho & Ea & Pa & Hr & Hd). rewrite Ea in Eo.
    destruct (si_solve_ends v (sampled g) k0 alpha (/ m) e0 (tuniform (RtoC m)) S0 whole_solvable F0 I Pa (Rinv_0_lt_compat m Hm) 0 rho L0 Hd Hr s Ew Eo Ef Ep E maxiter rtol w (Rle_refl 0) W0 Ht) as (fuel & x & EL & En).
    exists fuel, x. unfold solve. rewrite Es. cbn [bind]. split; [unfold solve_function, solve_method, chosen; rewrite EL; reflexivity|]. split.
    - destruct En as (i & Hi & _). apply Hi.
    - apply (ended_limit _ _ _ _ _ _ En).
  Qed.
  Lemma whole_accurate loss : (0 < loss)%R -> absorbs n (points_of g) (plus_isotropic t chi) loss ->
    exists E K, wave_equation v (sampled g) k0 (/ m) (plus_isotropic t chi) E src /\
      (forall E', wave_equation v (sampled g) k0 (/ m) (plus_isotropic t chi) E' src -> vagree n (points_of g) E' E) /\
      forall rtol, (0 < rtol)%R -> exists fuel s, solve u eps settled thick fuel q NoneGiven rtol None w = Ok (Some (Returned w s)) /\
        (magnitude s (fun c p => get_E s c p - E c p)%C <= K * rtol * magnitude s (get_E s))%R.
  Proof.
    intros Hl Hab. destruct (whole_solution u eps settled thick q g crd v k0 m src t chi Hc Hgrid Hg Hcrd Hxi Hzeta Hmu Hk Hkind Hsrc Hmed Hchi Hfit) as (s & e0 & S0 & Es & Ew & Ef & Ep & Eo & Ae & AS).
    fold n in AS. pose proof (fits_agree v _ _ _ Ae (fits_plus v t chi Hfit)) as F0. pose proof (agree_absorbs v e0 _ _ F0 Ae loss Hab) as L0.
    pose proof (fun E => agree_wave v e0 _ _ F0 Ae (sampled g) k0 (/ m) E S0 src eq_refl AS) as W0.
    destruct (construct_alpha eps (sampled g) k0 v e0 m settled thick S0 He H1 F0 (absorbs_weaken _ _ _ _ 0 (Rlt_le _ _ Hl) L0) Hm Hq) as (alpha & rho & Ea & Pa & Hr & Hd). rewrite Ea in Eo.
    destruct (si_solve_accurate v (sampled g) k0 alpha (/ m) e0 (tuniform (RtoC m)) S0 whole_solvable F0 I Pa (Rinv_0_lt_compat m Hm) loss rho L0 Hd Hr s Ew Eo Ef Ep w Hl) as (E & K & HE & Hu & Hs).
    exists E, K. split; [apply W0, HE|]. split; [intros E' HE'; apply Hu, W0, HE'|]. intros rtol Ht. destruct (Hs rtol Ht) as (fuel & x & EL & Hx). exists fuel, x. split; [|exact Hx].
    unfold solve. rewrite Es. cbn [bind]. unfold solve_function, solve_method, chosen. rewrite EL. reflexivity.
  Qed.
End Results.

(** Boundaries do not amplify. *)
Lemma boundary_passive g q chi p : asked_boundary g q chi -> CSum.inside (points_of g) p -> (0 <= snd (chi p))%R.
Proof.
  unfold asked_boundary. destruct (q_bound q) as [[b bg]|]; [|intros H _; rewrite H; cbn; lra]. intros (tt & f & _ & _ & H) Hp. destruct (H p Hp) as (n & k & [En Pn] & -> & (K0 & _)). rewrite <- En.
  destruct n as [a b0]. cbn in *. assert (0 <= a)%R by lra. nra.
Qed.
Lemma boundary_exists g q b bg tt f : upright g -> absorbing_bound RN g tt f = Ok b -> q_bound q = Some (b, bg) -> exists chi, asked_boundary g q chi.
Proof.
  intros U E Eq. destruct (Bound_Proofs.absorbing_extinction g tt f b U E) as (kappa & Ek & Hk). exists (fun p => absorbing_susceptibility bg (kappa (fun a => nth a p 0%nat))). unfold asked_boundary. rewrite Eq.
  exists tt, f. refine (conj U (conj E _)). intros p Hp. exists (csqrt bg), (kappa (fun a => nth a p 0%nat)). refine (conj (csqrt_principal bg) (conj eq_refl _)). apply Hk. apply inside_axes, Hp.
Qed.
Lemma index_absorbs (v : bool) g q chi (f : sfield) loss : asked_boundary g q chi -> (forall p, CSum.inside (points_of g) p -> (loss <= 2 * fst (f p) * snd (f p))%R) ->
  absorbs (if v then 3 else 1) (points_of g) (plus_isotropic (square (TScalar f)) chi) loss.
Proof.
  intros Hb Hf. cbn [square plus_isotropic]. apply absorbs_scalar. intros p Hp. specialize (Hf p Hp). pose proof (boundary_passive g q chi p Hb Hp) as Hc.
  destruct (f p) as [a b], (chi p) as [c d]. cbn in *. lra.
Qed.

(** Ranges instead of a Grid. *)
Lemma solve_grid (W : Type) a a' u eps settled thick fuel q (cb : callback_arg W) rtol maxiter w : solution_grid a = solution_grid a' ->
  solve u eps settled thick fuel (with_grid q a) cb rtol maxiter w = solve u eps settled thick fuel (with_grid q a') cb rtol maxiter w.
Proof. intros E. unfold solve, new_solution. cbn [q_grid with_grid]. rewrite E. reflexivity. Qed.
Lemma whole_ranges d rs : rs <> [] -> (forall r, In r rs -> is_range r /\ exists x y, In x r /\ In y r /\ x <> y) ->
  exists g, Entry_Spec.spatial g /\ ndim RN g = length rs /\ (forall i, (i < length rs)%nat -> coordinates g i = Ok (nth i rs [])) /\
    forall (W : Type) u eps settled thick fuel q (cb : callback_arg W) rtol maxiter w,
      solve u eps settled thick fuel (with_grid q (ARanges d rs)) cb rtol maxiter w = solve u eps settled thick fuel (with_grid q (AGrid g)) cb rtol maxiter w /\
      forall r, rs = [r] -> solve u eps settled thick fuel (with_grid q (ANumbers d r)) cb rtol maxiter w = solve u eps settled thick fuel (with_grid q (AGrid g)) cb rtol maxiter w.
Proof.
  intros Hne Hr. destruct (from_ranges_ok d rs) as (g & E & Rg & N & M & V); [intros r H; apply Hr; exact H|].
  exists g. assert (forall i, (i < length rs)%nat -> coordinates g i = Ok (nth i rs [])) as Vg by exact V. split; [|split; [exact N|split; [exact Vg|]]].
  - split; [exact Rg|]. split; [exact M|]. intros i Hi. split.
    + apply (ranges_flat d rs); [exact E|lia].
    + destruct (Hr (nth i rs [])) as (_ & x & y & Hx & Hy & Hxy); [apply nth_In; lia|].
      apply (ranges_step g i x y Rg Hi _ (Vg i ltac:(lia)) Hx Hy Hxy).
  - intros W u eps settled thick fuel q cb rtol maxiter w. split.
    + apply solve_grid. destruct rs as [|r rs]; [contradiction|]. cbn [solution_grid]. rewrite E. reflexivity.
    + intros r ->. apply solve_grid. destruct r as [|r0 r]; [destruct (Hr [] (or_introl eq_refl)) as (_ & x & _ & Hx & _); destruct Hx|]. cbn [solution_grid]. rewrite E. reflexivity.
Qed.
