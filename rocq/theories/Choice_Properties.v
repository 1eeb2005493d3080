(** The choice of the constants alpha and beta: C101, C102, C103. *)
From Coq Require Import Reals Lra Lia List Arith Bool.
Require Import Verif.Base Verif.Cplx Verif.CSum Verif.Field Verif.Fourier_Model Verif.Fourier_Spec Verif.Fourier_Proofs Verif.Display_Model.
Require Import Verif.Modes_Model Verif.Roots_Model Verif.Eigen_Bound.
Require Import Verif.Vec_Model Verif.Vec_Spec Verif.Vec_Proofs Verif.Solver_Model Verif.Solver_Spec Verif.Solver_Proofs.
Require Import Verif.Solver_Convergence Verif.Solver_Limit Verif.Solver_Choice Verif.Choice_Model Verif.Choice_Proofs Verif.Choice_Construct Verif.Choice_Gain.
Import ListNotations.
Local Open Scope R_scope.
Local Open Scope C_scope.

(** C101: the fixed points of the iteration are the solutions of the wave equation, whatever values the optimisation settled on, for
    isotropic and anisotropic permittivities without gain. *)
Theorem constructed_fixed_point : forall eps g k0 v epsilon m settled kappa S F,
  (0 < eps)%R -> (2 * eps <= 1)%R -> (0 < m)%R -> (800 * sqrt eps * (m * m) < 1)%R ->
  solvable v g k0 -> fits v epsilon -> let n := (if v then 3 else 1)%nat in absorbs n (rshape g) epsilon 0 ->
  let o := construct eps g k0 v epsilon tzero tzero (tuniform (RtoC m)) settled kappa S in
  vagree n (rshape g) (update o F) (fun _ _ => 0) <-> wave_equation v g k0 (/ m) epsilon (electric_field k0 F) S.
Proof.
  intros eps g k0 v epsilon m settled kappa S F He H1 Hm Hq Hs Hf n Ha o.
  destruct (construct_alpha eps g k0 v epsilon m settled kappa S He H1 Hf Ha Hm Hq) as (alpha & rho & E & Pa & Hr & Hd). unfold o. rewrite E.
  exact (si_fixed v g k0 alpha (/ m) epsilon (tuniform (RtoC m)) S Hs Hf I Pa (Rinv_0_lt_compat m Hm) rho Hd Hr F).
Qed.
Print Assumptions constructed_fixed_point.

(** C101: the corrections never grow. *)
Theorem constructed_never_grows : forall eps g k0 v epsilon m settled kappa S F,
  (0 < eps)%R -> (2 * eps <= 1)%R -> (0 < m)%R -> (800 * sqrt eps * (m * m) < 1)%R ->
  solvable v g k0 -> fits v epsilon -> let n := (if v then 3 else 1)%nat in absorbs n (rshape g) epsilon 0 ->
  let o := construct eps g k0 v epsilon tzero tzero (tuniform (RtoC m)) settled kappa S in
  (vnorm2 n (rshape g) (update o (next_field o F)) <= vnorm2 n (rshape g) (update o F))%R.
Proof.
  intros eps g k0 v epsilon m settled kappa S F He H1 Hm Hq Hs Hf n Ha o.
  destruct (construct_alpha eps g k0 v epsilon m settled kappa S He H1 Hf Ha Hm Hq) as (alpha & rho & E & Pa & Hr & Hd). unfold o. rewrite E.
  exact (si_corrections v g k0 alpha (/ m) epsilon (tuniform (RtoC m)) S Hs Hf Pa (Rinv_0_lt_compat m Hm) 0 rho Ha Hd Hr F (Rle_refl 0)).
Qed.
Print Assumptions constructed_never_grows.

(** C101: the corrections vanish if there is a solution. *)
Theorem constructed_corrections_vanish : forall eps g k0 v epsilon m settled kappa S E,
  (0 < eps)%R -> (2 * eps <= 1)%R -> (0 < m)%R -> (800 * sqrt eps * (m * m) < 1)%R ->
  solvable v g k0 -> fits v epsilon -> let n := (if v then 3 else 1)%nat in absorbs n (rshape g) epsilon 0 ->
  wave_equation v g k0 (/ m) epsilon E S ->
  let o := construct eps g k0 v epsilon tzero tzero (tuniform (RtoC m)) settled kappa S in
  exists K, forall F i,
    (INR (i + 1) * vnorm2 n (rshape g) (update o (Nat.iter i (next_field o) F)) <= K * vnorm2 n (rshape g) (fun c p => F c p - RtoC (k0 * k0) * E c p)%C)%R.
Proof.
  intros eps g k0 v epsilon m settled kappa S E He H1 Hm Hq Hs Hf n Ha HE o.
  destruct (construct_alpha eps g k0 v epsilon m settled kappa S He H1 Hf Ha Hm Hq) as (alpha & rho & Eo & Pa & Hr & Hd). unfold o. rewrite Eo.
  exists (4 / (1 - rho * rho))%R. intros F i. rewrite Nat.add_1_r.
  exact (si_rate v g k0 alpha (/ m) epsilon (tuniform (RtoC m)) S Hs Hf I Pa (Rinv_0_lt_compat m Hm) 0 rho Ha Hd Hr F E i (Rle_refl 0) HE).
Qed.
Print Assumptions constructed_corrections_vanish.

(** C101: with loss everywhere the iteration converges to the only solution. *)
Theorem constructed_converges : forall eps g k0 v epsilon m settled kappa S loss F,
  (0 < eps)%R -> (2 * eps <= 1)%R -> (0 < m)%R -> (800 * sqrt eps * (m * m) < 1)%R ->
  solvable v g k0 -> fits v epsilon -> let n := (if v then 3 else 1)%nat in (0 < loss)%R -> absorbs n (rshape g) epsilon loss ->
  let o := construct eps g k0 v epsilon tzero tzero (tuniform (RtoC m)) settled kappa S in
  exists E q, (0 <= q < 1)%R /\ wave_equation v g k0 (/ m) epsilon E S /\
    (forall E', wave_equation v g k0 (/ m) epsilon E' S -> vagree n (rshape g) E' E) /\
    forall i, (vnorm2 n (rshape g) (fun c p => electric_field k0 (Nat.iter i (next_field o) F) c p - E c p)%C <=
               q ^ i * vnorm2 n (rshape g) (fun c p => electric_field k0 F c p - E c p)%C)%R.
Proof.
  intros eps g k0 v epsilon m settled kappa S loss F He H1 Hm Hq Hs Hf n Hl Ha o.
  destruct (construct_alpha eps g k0 v epsilon m settled kappa S He H1 Hf (absorbs_weaken _ _ _ _ 0 (Rlt_le _ _ Hl) Ha) Hm Hq) as (alpha & rho & Eo & Pa & Hr & Hd). unfold o. rewrite Eo.
  exact (si_converges v g k0 alpha (/ m) epsilon (tuniform (RtoC m)) S Hs Hf I Pa (Rinv_0_lt_compat m Hm) loss rho Ha Hd Hr F Hl).
Qed.
Print Assumptions constructed_converges.

(** A gyrotropic medium with loss. *)
Definition gyrotropic : tensor := TMatrix (fun i j p => match i, j with
  | 0%nat, 0%nat => (2, 1)%R | 0%nat, 1%nat => (0, 1 / 2)%R | 1%nat, 0%nat => (0, - (1 / 2))%R | 1%nat, 1%nat => (3, 1)%R | 2%nat, 2%nat => (1, INR (length p))%R | _, _ => 0 end).
Definition a_grid : raster := {| rshape := [4; 3]%nat; rstep := [1; 2]%R |}.
Example constructed_hypotheses : let eps := (1 / 1000 * (1 / 1000) * (1 / 1000 * (1 / 1000)))%R in
  (0 < eps)%R /\ (2 * eps <= 1)%R /\ (0 < 2)%R /\ (800 * sqrt eps * (2 * 2) < 1)%R /\ solvable true a_grid 2 /\ fits true gyrotropic /\ (0 < 1)%R /\ absorbs 3 (rshape a_grid) gyrotropic 1.
Proof.
  intros eps. unfold eps. rewrite sqrt_square by lra. repeat split; try lra; try (cbn; lia); try (repeat constructor; lia); try (repeat constructor; lra).
  intros p u Hp. assert (length p = 2%nat) as L by (rewrite (inside_length _ _ Hp); reflexivity). cbn [rsum csum tapply gyrotropic]. rewrite L.
  destruct (u 0%nat) as [a b], (u 1%nat) as [c d], (u 2%nat) as [x y]; rewrite !Cmod_sq; cbn; nra.
Qed.

(** C102: media without gain are not reported to have gain. *)
Theorem gain_free_not_flagged : forall eps s v epsilon m, (0 < eps)%R -> (2 * eps <= 1)%R -> fits v epsilon -> absorbs (if v then 3 else 1) s epsilon 0 ->
  let mu := tuniform (RtoC m) in warns eps s epsilon tzero tzero mu = false /\ transposes eps s epsilon tzero tzero mu = false.
Proof.
  intros eps s v epsilon m He H1 Hf Ha mu. unfold mu, warns, transposes. rewrite (no_some_gain eps s v epsilon m He H1 Hf Ha). split; reflexivity.
Qed.
Print Assumptions gain_free_not_flagged.

(** C102: a gain of more than 3 sqrt eps is never missed, for any of the material properties. *)
Theorem gain_flagged : forall eps s v epsilon xi zeta mu, (0 < eps)%R -> (2 * eps <= 1)%R ->
  (exists t, In t [epsilon; xi; zeta; mu] /\ fits v t /\ ~ absorbs (if v then 3 else 1) s t (- (3 * sqrt eps))) ->
  warns eps s epsilon xi zeta mu = true \/ transposes eps s epsilon xi zeta mu = true.
Proof. exact gain_is_flagged. Qed.
Print Assumptions gain_flagged.

Example gain_hypotheses : ~ absorbs 3 [2%nat] (TMatrix (fun i j p => if Nat.eqb i j then (1, 0)%R else match p with [1%nat] => (0, 1 / 10)%R | _ => 0 end)) (- (3 * (1 / 100))).
Proof.
  intros H. specialize (H [1%nat] (fun i => match i with 0%nat => RtoC 1 | 1%nat => RtoC (- (1)) | _ => RtoC 0 end) ltac:(repeat constructor; lia)).
  cbn [rsum csum tapply Nat.eqb] in H. rewrite !Cmod_sq in H. cbn in H. lra.
Qed.

(** C102: no warning and not transposed, so gain of at most 3 sqrt eps in any direction at any point. *)
Theorem unflagged_gain_small : forall eps s v epsilon xi zeta mu, (0 < eps)%R -> (2 * eps <= 1)%R ->
  warns eps s epsilon xi zeta mu = false -> transposes eps s epsilon xi zeta mu = false ->
  forall t, In t [epsilon; xi; zeta; mu] -> fits v t -> absorbs (if v then 3 else 1) s t (- (3 * sqrt eps)).
Proof. exact unflagged_small. Qed.
Print Assumptions unflagged_gain_small.

(** C103: for media with gain and no loss there is no warning, and the imaginary part of alpha is negated so that the iteration would be the
    mirror image of that of the conjugate medium.  What is added afterwards to keep it away from the deviation of the medium has the wrong sign. *)
Theorem gain_only_alpha_partial : forall eps g k0 v epsilon m settled S, (0 < m)%R -> transposes eps (rshape g) epsilon tzero tzero (tuniform (RtoC m)) = true ->
  let mu := tuniform (RtoC m) in
  let o := construct eps g k0 v epsilon tzero tzero mu settled None S in
  warns eps (rshape g) epsilon tzero tzero mu = false /\ (- snd (o_alpha o) = sigma_EE eps (rshape g) epsilon (fst settled) (/ m) - 5 / 100)%R.
Proof. exact gain_only_alpha. Qed.
Print Assumptions gain_only_alpha_partial.

(** C103: a medium with gain only, for which the corrections double with each iteration; and one for which alpha is real so that the operators,
    in which the imaginary part of alpha is a divisor, are undefined. *)
Theorem gain_only_grows_refuted : forall eps, (0 < eps)%R -> (10000 * eps < 1)%R ->
  let o := construct eps point 1 false (tuniform (1, - (1 / 10))%R) tzero tzero (tuniform 1) (1, 1)%R None (fun _ _ => 0) in
  transposes eps (rshape point) (tuniform (1, - (1 / 10))%R) tzero tzero (tuniform 1) = true /\
  warns eps (rshape point) (tuniform (1, - (1 / 10))%R) tzero tzero (tuniform 1) = false /\
  forall F, (3 * vnorm2 1 (rshape point) (update o F) <= vnorm2 1 (rshape point) (update o (next_field o F)))%R.
Proof. exact gain_only_grows. Qed.
Print Assumptions gain_only_grows_refuted.
Theorem gain_only_real_alpha_refuted : forall eps, (0 < eps)%R -> (10000 * eps < 1)%R ->
  let o := construct eps point 1 false (tuniform (1, - (1 / 20))%R) tzero tzero (tuniform 1) (1, 1)%R None (fun _ _ => 0) in
  warns eps (rshape point) (tuniform (1, - (1 / 20))%R) tzero tzero (tuniform 1) = false /\ snd (o_alpha o) = 0%R.
Proof. exact gain_only_real_alpha. Qed.
Print Assumptions gain_only_real_alpha_refuted.
