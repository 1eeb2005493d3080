(** C123, C124: rounding errors do not build up, and the number of iterations does not depend on the grid. *)
From Coq Require Import Reals Lra Lia List Arith Bool.
Require Import Verif.Base Verif.Cplx Verif.CSum Verif.Field Verif.Fourier_Model Verif.Fourier_Spec Verif.Vec_Model Verif.Vec_Spec Verif.Solver_Model Verif.Solver_Spec.
Require Import Verif.Solver_Choice Verif.Robust_Spec Verif.Robust_Proofs Verif.Solver_Properties.
Import ListNotations.
Local Open Scope R_scope.
Local Open Scope C_scope.

(** C123: in a lossy medium the effect of all errors together stays below a fixed level, however many iterations are made.  Alpha may change
    from one iteration to the next. *)
Theorem rounding_does_not_build_up : forall v g k0 beta eps mu S loss contrast low high E alphas d0 d1 X,
  solvable v g k0 -> fits v eps -> fits v mu -> (0 < beta)%R ->
  let n := (if v then 3 else 1)%nat in
  absorbs n (rshape g) eps loss -> (0 < loss)%R -> (0 <= contrast < low)%R -> (low <= high)%R -> wave_equation v g k0 beta eps E S ->
  (forall m, (low <= snd (alphas m) <= high)%R /\ deviates n (rshape g) eps beta (fst (alphas m)) contrast) ->
  (0 <= d0)%R -> (0 <= d1)%R ->
  perturbed n (rshape g) k0 (fun m => next_field (prepare (scaled k0 g) v false (alphas m) beta eps tzero tzero mu S)) d0 d1 X ->
  let r := factor beta loss contrast low high in
  (0 <= r < 1)%R /\
  ((r + d1 < 1)%R -> forall m,
   (error n (rshape g) k0 (X m) E <= (r + d1) ^ m * error n (rshape g) k0 (X 0%nat) E + (d0 + d1 * size n (rshape g) E) / (1 - (r + d1)))%R).
Proof.
  intros v g k0 beta eps mu S loss contrast low high E alphas d0 d1 X Hs Hf Hm Hb n Hl Hl0 Hc Hh HE Ha H0 H1 HX r.
  exact (conj (proj1 (factor_range beta loss contrast low high Hb Hl0 Hc Hh))
    (perturbed_error v g k0 beta eps mu S Hs Hf Hm Hb loss contrast low high Hl Hc Hh E HE alphas d0 d1 H0 H1 X HX Hl0 Ha)).
Qed.
Print Assumptions rounding_does_not_build_up.

(** C123: without loss the errors at most add up. *)
Theorem rounding_adds_up : forall v g k0 beta eps mu S contrast low E alphas d0 d1 X,
  solvable v g k0 -> fits v eps -> fits v mu -> (0 < beta)%R ->
  let n := (if v then 3 else 1)%nat in
  absorbs n (rshape g) eps 0 -> (0 <= contrast < low)%R -> wave_equation v g k0 beta eps E S ->
  (forall m, (low <= snd (alphas m))%R /\ deviates n (rshape g) eps beta (fst (alphas m)) contrast) ->
  (0 <= d0)%R -> (0 <= d1)%R ->
  perturbed n (rshape g) k0 (fun m => next_field (prepare (scaled k0 g) v false (alphas m) beta eps tzero tzero mu S)) d0 d1 X ->
  forall m, (error n (rshape g) k0 (X m) E <= (1 + d1) ^ m * (error n (rshape g) k0 (X 0%nat) E + INR m * (d0 + d1 * size n (rshape g) E)))%R.
Proof.
  intros v g k0 beta eps mu S contrast low E alphas d0 d1 X Hs Hf Hm Hb n Hl Hc HE Ha H0 H1 HX.
  exact (perturbed_lossless v g k0 beta eps mu S Hs Hf Hm Hb 0 contrast low Hl Hc E HE alphas d0 d1 H0 H1 X HX (Rle_refl 0) Ha).
Qed.
Print Assumptions rounding_adds_up.

(** C123: the correction that the solver reports tells the error of a field, however that field was computed. *)
Theorem correction_measures_error : forall v g k0 beta eps mu S loss contrast low high E alpha F,
  solvable v g k0 -> fits v eps -> fits v mu -> (0 < beta)%R ->
  let n := (if v then 3 else 1)%nat in
  absorbs n (rshape g) eps loss -> (0 < loss)%R -> (0 <= contrast < low)%R -> (low <= high)%R -> wave_equation v g k0 beta eps E S ->
  (low <= snd alpha <= high)%R -> deviates n (rshape g) eps beta (fst alpha) contrast ->
  let correction := electric_field k0 (update (prepare (scaled k0 g) v false alpha beta eps tzero tzero mu S) F) in
  ((1 - factor beta loss contrast low high) * error n (rshape g) k0 F E <= size n (rshape g) correction <= 2 * error n (rshape g) k0 F E)%R.
Proof.
  intros v g k0 beta eps mu S loss contrast low high E alpha F Hs Hf Hm Hb n Hl Hl0 Hc Hh HE Ha Hd.
  exact (conj (correction_lower v g k0 beta eps mu S Hs Hf Hm Hb loss contrast low high Hl Hc Hh E HE alpha F Hl0 Ha Hd)
    (correction_upper v g k0 beta eps mu S Hs Hf Hm Hb loss contrast low Hl Hc E HE alpha F (Rlt_le _ _ Hl0) (proj1 Ha) Hd)).
Qed.
Print Assumptions correction_measures_error.

(** C124: the error drops in every iteration by a factor that follows from beta, the loss, the contrast, and the largest alpha. *)
Theorem convergence_speed : forall v g k0 beta e mu S alpha_r kappa loss contrast high E F m,
  solvable v g k0 -> fits v mu -> (0 < beta)%R -> (0 < loss)%R -> (forall p, inside (rshape g) p -> (loss <= snd (e p))%R) ->
  (0 <= contrast)%R -> (forall p, inside (rshape g) p -> (Cmod (e p - RtoC (alpha_r * beta))%C <= contrast * beta)%R) ->
  let alpha := choose_alpha g e beta alpha_r false kappa in
  (snd alpha <= high)%R -> wave_equation v g k0 beta (TScalar e) E S -> (contrast + 5 / 100 <= high)%R ->
  let n := (if v then 3 else 1)%nat in
  (error n (rshape g) k0 (Nat.iter m (next_field (prepare (scaled k0 g) v false alpha beta (TScalar e) tzero tzero mu S)) F) E <=
   factor beta loss contrast (contrast + 5 / 100) high ^ m * error n (rshape g) k0 F E)%R.
Proof.
  intros v g k0 beta e mu S ar kappa loss contrast high E F m Hs Hm Hb Hl He Hc0 Hc alpha Hh HE Hch n.
  exact (chosen_error v g k0 beta e mu S ar kappa Hs Hm Hb loss contrast high Hl He Hc0 Hc Hh E HE F m Hch).
Qed.
Print Assumptions convergence_speed.

(** C124: a number of iterations that suffices for every grid, wavelength, medium, source, and starting field. *)
Theorem iterations_independent_of_grid : forall beta loss contrast high tol,
  (0 < beta)%R -> (0 < loss)%R -> (0 <= contrast)%R -> (contrast + 5 / 100 <= high)%R -> (0 < tol)%R ->
  exists N, forall v g k0 e mu S alpha_r kappa E F m,
    solvable v g k0 -> fits v mu -> (forall p, inside (rshape g) p -> (loss <= snd (e p))%R) ->
    (forall p, inside (rshape g) p -> (Cmod (e p - RtoC (alpha_r * beta))%C <= contrast * beta)%R) ->
    let alpha := choose_alpha g e beta alpha_r false kappa in
    (snd alpha <= high)%R -> wave_equation v g k0 beta (TScalar e) E S -> (N <= m)%nat ->
    let n := (if v then 3 else 1)%nat in
    (error n (rshape g) k0 (Nat.iter m (next_field (prepare (scaled k0 g) v false alpha beta (TScalar e) tzero tzero mu S)) F) E <=
     tol * error n (rshape g) k0 F E)%R.
Proof. exact uniform_iterations. Qed.
Print Assumptions iterations_independent_of_grid.

(** C124: without absorbing boundaries alpha is never more than 0.05 above the contrast. *)
Theorem alpha_follows_contrast : forall g e beta alpha_r contrast, (0 < beta)%R -> (0 <= contrast)%R ->
  (forall p, inside (rshape g) p -> (Cmod (e p - RtoC (alpha_r * beta))%C <= contrast * beta)%R) ->
  (snd (choose_alpha g e beta alpha_r false None) <= contrast + 5 / 100)%R.
Proof. intros g e beta ar contrast Hb Hc H. exact (Rplus_le_compat_r (5 / 100) _ _ (sigma_le g e ar beta contrast Hb Hc H)). Qed.
Print Assumptions alpha_follows_contrast.

(** The factor for a loss of 1/2, a contrast of 1, and alpha up to 2. *)
Example factor_value : factor 1 (1 / 2) 1 (105 / 100) 2 = sqrt (1 - (1 - (100 / 105) * (100 / 105)) / 2).
Proof. unfold factor, rate. f_equal. f_equal. rewrite Rmin_right; lra. Qed.
(** A sequence of fields with errors that all have the same sign. *)
Example perturbed_hypothesis : perturbed 1 [2%nat] 1 (fun _ F => F) (sqrt 2) 0 (fun m _ _ => RtoC (INR m)).
Proof.
  intros m. unfold error, size, electric_field. rewrite Rmult_0_l, Rplus_0_r. apply sqrt_le_1_alt.
  assert (RtoC (INR (S m)) / RtoC (1 * 1) - RtoC (INR m) / RtoC (1 * 1) = RtoC 1)%C as H.
  { rewrite S_INR. unfold Cdiv, RtoC, Cinv, Cmult, Cminus, Cplus, Copp. cbn. f_equal; field. }
  unfold vnorm2, norm2. cbn [csum rsum rsum_over]. rewrite !H, !Cmod_sq. cbn. lra.
Qed.
Example speed_hypotheses : solvable true demo_grid 2 /\ fits true (tuniform 1) /\
  (forall p, inside (rshape demo_grid) p -> (/2 <= snd (demo_eps p))%R) /\
  (forall p, inside (rshape demo_grid) p -> (Cmod (demo_eps p - RtoC (2 * 1))%C <= 6 * 1)%R).
Proof.
  refine (conj _ (conj I (conj _ _))).
  - apply lossy_hypotheses.
  - apply lossy_hypotheses.
  - intros p _. apply Rsqr_incr_0_var; [|lra]. unfold Rsqr. rewrite Cmod_sq. unfold demo_eps.
    destruct p as [|[|[|a]] [|[|[|b]] [|c l]]]; cbn; lra.
Qed.
