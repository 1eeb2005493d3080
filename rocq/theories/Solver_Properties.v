(** The properties of the preconditioned iteration of the solver (C12, C13, C14, C67, C68). *)
From Coq Require Import Reals Lra Lia List Arith Bool.
Require Import Verif.Base Verif.Cplx Verif.CSum Verif.Field Verif.Fourier_Model Verif.Fourier_Spec Verif.Fourier_Proofs.
Require Import Verif.Vec_Model Verif.Vec_Spec Verif.Vec_Proofs Verif.Solver_Model Verif.Solver_Spec Verif.Solver_Proofs.
Require Import Verif.Solver_Convergence Verif.Solver_Limit Verif.Solver_Choice.
Import ListNotations.
Local Open Scope R_scope.
Local Open Scope C_scope.

(** C12: the correction of the field vanishes exactly if the electric field solves the wave equation, for tensors. *)
Theorem fixed_point_is_solution : forall v g k0 alpha beta eps mu S F,
  solvable v g k0 -> fits v eps -> fits v mu -> snd alpha <> 0%R -> beta <> 0%R ->
  let o := prepare (scaled k0 g) v false alpha beta eps tzero tzero mu S in
  injective (rshape g) (o_chiEE o) ->
  (vagree (if v then 3 else 1) (rshape g) (update o F) (fun _ _ => 0) <->
   wave_equation v g k0 beta eps (electric_field k0 F) S).
Proof. intros v g k0 alpha beta eps mu S F Hs Hf Hm Ha Hb o Hi. exact (fixed_point_wave v g k0 alpha beta eps mu S Hs Hf Hm F Ha Hb Hi). Qed.
Print Assumptions fixed_point_is_solution.

(** C12: every solution is left unchanged, invertible or not. *)
Theorem solution_is_fixed_point : forall v g k0 alpha beta eps mu S E,
  solvable v g k0 -> fits v eps -> fits v mu -> snd alpha <> 0%R -> beta <> 0%R -> wave_equation v g k0 beta eps E S ->
  let o := prepare (scaled k0 g) v false alpha beta eps tzero tzero mu S in
  vagree (if v then 3 else 1) (rshape g) (update o (fun c p => RtoC (k0 * k0) * E c p)) (fun _ _ => 0).
Proof. intros v g k0 alpha beta eps mu S E Hs Hf Hm Ha Hb HE. exact (update_zero_of_wave v g k0 alpha beta eps mu E S Hs Ha Hb Hf Hm HE). Qed.
Print Assumptions solution_is_fixed_point.

(** C12: for isotropic media and the alpha that the constructor chooses, without further conditions. *)
Theorem fixed_point_is_solution_isotropic : forall v g k0 beta e mu S F alpha_r kappa,
  solvable v g k0 -> fits v mu -> (0 < beta)%R ->
  let alpha := choose_alpha g e beta alpha_r false kappa in
  let o := prepare (scaled k0 g) v false alpha beta (TScalar e) tzero tzero mu S in
  (vagree (if v then 3 else 1) (rshape g) (update o F) (fun _ _ => 0) <->
   wave_equation v g k0 beta (TScalar e) (electric_field k0 F) S).
Proof.
  intros v g k0 beta e mu S F ar kappa Hs Hm Hb alpha o. destruct (choose_alpha_bias g e beta ar kappa Hb) as (rho & Hr & Ha & Hf & Hd).
  exact (si_fixed v g k0 alpha beta (TScalar e) mu S Hs I Hm Ha Hb rho (Hd _) Hr F).
Qed.
Print Assumptions fixed_point_is_solution_isotropic.

Definition demo_grid : raster := {| rshape := [4; 3]%nat; rstep := [1; 2]%R |}.
Definition demo_eps : list nat -> C := fun p => match p with [0%nat; 1%nat] => (2, 1)%R | [1%nat; _] => (-3, 1)%R | _ => (1, /2)%R end.
Lemma demo_proper : proper demo_grid.
Proof. repeat split; cbn; repeat constructor; lra || lia. Qed.
(** The hypotheses hold for a scattering, lossy medium on a 4x3 grid, for vectors. *)
Example fixed_point_hypotheses : solvable true demo_grid 2 /\ fits true (TScalar demo_eps) /\ fits true (tuniform 1) /\
  exists alpha, snd alpha <> 0%R /\
    injective (rshape demo_grid) (o_chiEE (prepare (scaled 2 demo_grid) true false alpha 1 (TScalar demo_eps) tzero tzero (tuniform 1) (fun _ _ => 1))).
Proof.
  assert (solvable true demo_grid 2) as Hs by (repeat split; try apply demo_proper; try lra; cbn; lia).
  repeat split; try apply demo_proper; try lra; try (cbn; lia).
  destruct (choose_alpha_bias demo_grid demo_eps 1 0 None Rlt_0_1) as (rho & Hr & Ha & Hf & Hd).
  exists (choose_alpha demo_grid demo_eps 1 0 false None). split; [lra|].
  exact (si_injective true demo_grid 2 _ 1 (TScalar demo_eps) (tuniform 1) (fun _ _ => 1) Hs I I Ha Rlt_0_1 rho (Hd _) Hr).
Qed.

(** C13: without gain, the corrections never grow; the alpha is the one of the constructor. *)
Theorem correction_never_grows : forall v g k0 beta e mu S F alpha_r kappa,
  solvable v g k0 -> fits v mu -> (0 < beta)%R -> (forall p, inside (rshape g) p -> (0 <= snd (e p))%R) ->
  let alpha := choose_alpha g e beta alpha_r false kappa in
  let o := prepare (scaled k0 g) v false alpha beta (TScalar e) tzero tzero mu S in
  let n := (if v then 3 else 1)%nat in
  (vnorm2 n (rshape g) (update o (next_field o F)) <= vnorm2 n (rshape g) (update o F))%R.
Proof.
  intros v g k0 beta e mu S F ar kappa Hs Hm Hb He alpha o n. destruct (choose_alpha_bias g e beta ar kappa Hb) as (rho & Hr & Ha & Hf & Hd).
  exact (si_corrections v g k0 alpha beta (TScalar e) mu S Hs I Ha Hb 0 rho (absorbs_scalar _ _ _ _ He) (Hd _) Hr F (Rle_refl 0)).
Qed.
Print Assumptions correction_never_grows.

(** C13: the same for anisotropic media, for every alpha that exceeds the deviation of the medium. *)
Theorem correction_never_grows_anisotropic : forall v g k0 alpha beta eps mu S F rho,
  solvable v g k0 -> fits v eps -> fits v mu -> (0 < snd alpha)%R -> (0 < beta)%R ->
  let n := (if v then 3 else 1)%nat in
  absorbs n (rshape g) eps 0 -> deviates n (rshape g) eps beta (fst alpha) (rho * snd alpha) -> (0 <= rho < 1)%R ->
  let o := prepare (scaled k0 g) v false alpha beta eps tzero tzero mu S in
  (vnorm2 n (rshape g) (update o (next_field o F)) <= vnorm2 n (rshape g) (update o F))%R.
Proof.
  intros v g k0 alpha beta eps mu S F rho Hs Hf Hm Ha Hb n Hl Hd Hr o.
  exact (si_corrections v g k0 alpha beta eps mu S Hs Hf Ha Hb 0 rho Hl Hd Hr F (Rle_refl 0)).
Qed.
Print Assumptions correction_never_grows_anisotropic.

(** C13: the distance to every solution never grows either. *)
Theorem error_never_grows : forall v g k0 alpha beta eps mu S F E rho,
  solvable v g k0 -> fits v eps -> fits v mu -> (0 < snd alpha)%R -> (0 < beta)%R ->
  let n := (if v then 3 else 1)%nat in
  absorbs n (rshape g) eps 0 -> deviates n (rshape g) eps beta (fst alpha) (rho * snd alpha) -> (0 <= rho < 1)%R ->
  wave_equation v g k0 beta eps E S ->
  let o := prepare (scaled k0 g) v false alpha beta eps tzero tzero mu S in
  (vnorm2 n (rshape g) (fun c p => electric_field k0 (next_field o F) c p - E c p)%C <=
   vnorm2 n (rshape g) (fun c p => electric_field k0 F c p - E c p)%C)%R.
Proof.
  intros v g k0 alpha beta eps mu S F E rho Hs Hf Hm Ha Hb n Hl Hd Hr HE o.
  exact (si_error v g k0 alpha beta eps mu S Hs Hf Hm Ha Hb 0 rho Hl Hd Hr F E (Rle_refl 0) HE).
Qed.
Print Assumptions error_never_grows.

(** C67: also without any loss the corrections vanish if there is a solution: the squared norm of the m-th correction is
    at most a constant divided by m + 1. *)
Theorem corrections_vanish : forall v g k0 beta e mu S alpha_r kappa E,
  solvable v g k0 -> fits v mu -> (0 < beta)%R -> (forall p, inside (rshape g) p -> (0 <= snd (e p))%R) ->
  wave_equation v g k0 beta (TScalar e) E S ->
  let alpha := choose_alpha g e beta alpha_r false kappa in
  let o := prepare (scaled k0 g) v false alpha beta (TScalar e) tzero tzero mu S in
  let n := (if v then 3 else 1)%nat in
  exists K, forall F m,
    (INR (m + 1) * vnorm2 n (rshape g) (update o (Nat.iter m (next_field o) F)) <=
     K * vnorm2 n (rshape g) (fun c p => F c p - RtoC (k0 * k0) * E c p)%C)%R.
Proof.
  intros v g k0 beta e mu S ar kappa E Hs Hm Hb He HE alpha o n. destruct (choose_alpha_bias g e beta ar kappa Hb) as (rho & Hr & Ha & Hf & Hd).
  exists (4 / (1 - rho * rho))%R. intros F m. rewrite Nat.add_1_r.
  exact (si_rate v g k0 alpha beta (TScalar e) mu S Hs I Hm Ha Hb 0 rho (absorbs_scalar _ _ _ _ He) (Hd _) Hr F E m (Rle_refl 0) HE).
Qed.
Print Assumptions corrections_vanish.

(** C68: with loss everywhere there is exactly one solution, and the iteration converges to it geometrically from
    every starting field. *)
Theorem lossy_converges : forall v g k0 beta e mu S alpha_r kappa loss F,
  solvable v g k0 -> fits v mu -> (0 < beta)%R -> (0 < loss)%R -> (forall p, inside (rshape g) p -> (loss <= snd (e p))%R) ->
  let alpha := choose_alpha g e beta alpha_r false kappa in
  let o := prepare (scaled k0 g) v false alpha beta (TScalar e) tzero tzero mu S in
  let n := (if v then 3 else 1)%nat in
  exists E q, (0 <= q < 1)%R /\ wave_equation v g k0 beta (TScalar e) E S /\
    (forall E', wave_equation v g k0 beta (TScalar e) E' S -> vagree n (rshape g) E' E) /\
    forall m, (vnorm2 n (rshape g) (fun c p => electric_field k0 (Nat.iter m (next_field o) F) c p - E c p)%C <=
               q ^ m * vnorm2 n (rshape g) (fun c p => electric_field k0 F c p - E c p)%C)%R.
Proof.
  intros v g k0 beta e mu S ar kappa loss F Hs Hm Hb Hl He alpha o n. destruct (choose_alpha_bias g e beta ar kappa Hb) as (rho & Hr & Ha & Hf & Hd).
  exact (si_converges v g k0 alpha beta (TScalar e) mu S Hs I Hm Ha Hb loss rho (absorbs_scalar _ _ _ _ He) (Hd _) Hr F Hl).
Qed.
Print Assumptions lossy_converges.

(** C68: anisotropic media. *)
Theorem lossy_converges_anisotropic : forall v g k0 alpha beta eps mu S loss rho F,
  solvable v g k0 -> fits v eps -> fits v mu -> (0 < snd alpha)%R -> (0 < beta)%R ->
  let n := (if v then 3 else 1)%nat in
  (0 < loss)%R -> absorbs n (rshape g) eps loss -> deviates n (rshape g) eps beta (fst alpha) (rho * snd alpha) -> (0 <= rho < 1)%R ->
  let o := prepare (scaled k0 g) v false alpha beta eps tzero tzero mu S in
  exists E q, (0 <= q < 1)%R /\ wave_equation v g k0 beta eps E S /\
    (forall E', wave_equation v g k0 beta eps E' S -> vagree n (rshape g) E' E) /\
    forall m, (vnorm2 n (rshape g) (fun c p => electric_field k0 (Nat.iter m (next_field o) F) c p - E c p)%C <=
               q ^ m * vnorm2 n (rshape g) (fun c p => electric_field k0 F c p - E c p)%C)%R.
Proof.
  intros v g k0 alpha beta eps mu S loss rho F Hs Hf Hm Ha Hb n Hl0 Hl Hd Hr o.
  exact (si_converges v g k0 alpha beta eps mu S Hs Hf Hm Ha Hb loss rho Hl Hd Hr F Hl0).
Qed.
Print Assumptions lossy_converges_anisotropic.

Example lossy_hypotheses : solvable true demo_grid 2 /\ fits true (tuniform 1) /\ (0 < /2)%R /\
  (forall p, inside (rshape demo_grid) p -> (/2 <= snd (demo_eps p))%R).
Proof.
  repeat split; try apply demo_proper; try lra; try (cbn; lia).
  intros p _. unfold demo_eps. destruct p as [|[|[|a]] [|[|[|b]] [|c l]]]; cbn; lra.
Qed.
(** A birefringent lossy medium. *)
Example anisotropic_hypotheses :
  let eps := TMatrix (fun i j p => match i, j with 0%nat, 0%nat => (2, 1)%R | 1%nat, 1%nat => (3, 1)%R | 2%nat, 2%nat => (1, 2)%R | _, _ => 0 end) in
  fits true eps /\ absorbs 3 (rshape demo_grid) eps 1 /\ deviates 3 (rshape demo_grid) eps 1 2 (9 / 10 * 3).
Proof.
  intros eps. split; [reflexivity|]. split; intros p u Hp; cbn [rsum csum tapply eps];
  destruct (u 0%nat) as [a b], (u 1%nat) as [c d], (u 2%nat) as [x y]; rewrite !Cmod_sq; cbn; nra.
Qed.

(** C14: whatever the changes of alpha, the operators are those of the material for the last alpha. *)
Theorem alpha_history : forall g v magnetic alpha beta eps xi zeta mu S alphas,
  snd alpha <> 0%R -> beta <> 0%R -> Forall (fun a => snd a <> 0%R) alphas ->
  fold_left update_operators alphas (prepare g v magnetic alpha beta eps xi zeta mu S) =
  prepare g v magnetic (last alphas alpha) beta eps xi zeta mu S.
Proof. exact update_history. Qed.
Print Assumptions alpha_history.

(** C14: and the source distribution that the user reads remains the one that was given. *)
Theorem alpha_history_source : forall g v magnetic alpha beta eps xi zeta mu S alphas c p,
  snd alpha <> 0%R -> beta <> 0%R -> Forall (fun a => snd a <> 0%R) alphas ->
  source_distribution (fold_left update_operators alphas (prepare g v magnetic alpha beta eps xi zeta mu S)) c p = S c p.
Proof. exact source_history. Qed.
Print Assumptions alpha_history_source.

(** C14: and the equation that is solved remains that of the user. *)
Theorem alpha_history_equation : forall v g k0 alpha beta eps mu S alphas F,
  solvable v g k0 -> fits v eps -> fits v mu -> snd alpha <> 0%R -> beta <> 0%R -> Forall (fun a => snd a <> 0%R) alphas ->
  let o := fold_left update_operators alphas (prepare (scaled k0 g) v false alpha beta eps tzero tzero mu S) in
  injective (rshape g) (o_chiEE o) ->
  (vagree (if v then 3 else 1) (rshape g) (update o F) (fun _ _ => 0) <->
   wave_equation v g k0 beta eps (electric_field k0 F) S).
Proof. exact equation_history. Qed.
Print Assumptions alpha_history_equation.
(** The solver multiplies the imaginary part of alpha with 1.5 at every rejection. *)
Example alpha_history_hypotheses : Forall (fun a : C => snd a <> 0%R) [(1, 3 / 2)%R; (1, 9 / 4)%R; (1, 27 / 8)%R].
Proof. repeat constructor; cbn; lra. Qed.
