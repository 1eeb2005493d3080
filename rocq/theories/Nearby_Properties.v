(** Errors in beams: C191. *)
From Coq Require Import Reals List Arith Bool ZArith Lia Lra.
Require Import Verif.Base Verif.CSum Verif.Field Verif.Fourier_Model Verif.Fourier_Spec Verif.Vec_Model Verif.Robust_Spec.
Require Import Verif.Beam_Model Verif.Beam_Spec Verif.Beam_Proofs Verif.Beam_Properties Verif.Superpose_Spec Verif.Superpose_Proofs Verif.Nearby_Spec Verif.Nearby_Proofs Verif.Cplx.
Import ListNotations.
Local Open Scope R_scope.
Local Open Scope C_scope.

(** Two fields that are close stay close, whatever the slices without gain that they propagate through: their distance grows by no more than 1e-8 per slice and field component, the level below which the code neglects a spectrum. *)
Theorem fields_stay_close : forall (b : setup) (k : R) (f h : vfield) (l : list action) (s t : section),
  section_grid (bgrid b) (baxis b) -> (0 < k)%R -> bk b = RtoC k -> bcomp b = 1%nat \/ bcomp b = 3%nat -> Forall (passive (bshape b) (bn b)) l ->
  (gap b (read_field b (run b s (SetField f :: l))) (read_field b (run b t (SetField h :: l))) <= gap b f h + INR (slices l + 1) * (sqrt (INR (bcomp b)) / 100000000))%R.
Proof. intros b k f h l s t G K BK Comp H. exact (fields_close b k G K BK Comp f h l s t H). Qed.
Print Assumptions fields_stay_close.
(** So do spectra; in media without structure their distance never grows. *)
Theorem spectra_stay_close : forall (b : setup) (k : R) (F H : vfield) (l : list action) (s t : section),
  section_grid (bgrid b) (baxis b) -> (0 < k)%R -> bk b = RtoC k -> bcomp b = 1%nat \/ bcomp b = 3%nat -> Forall (passive (bshape b) (bn b)) l ->
  (gap b (read_ft b (run b s (SetFt F :: l))) (read_ft b (run b t (SetFt H :: l))) <= gap b F H + INR (slices l) * (sqrt (INR (bcomp b * points (bshape b))) / 100000000))%R /\
  (Forall (flat_medium (bshape b)) l -> (gap b (read_ft b (run b s (SetFt F :: l))) (read_ft b (run b t (SetFt H :: l))) <= gap b F H)%R).
Proof. intros b k F H l s t G K BK Comp A. exact (spectra_close b k G K BK Comp F H l s t A). Qed.
Print Assumptions spectra_stay_close.
(** When every step is carried out with an error of at most e, then these errors add up, and no more than that. *)
Theorem beam_errors_add : forall (b : setup) (k e : R) (l : list action) (s t : section),
  section_grid (bgrid b) (baxis b) -> (0 < k)%R -> bk b = RtoC k -> bcomp b = 1%nat \/ bcomp b = 3%nat -> Forall (passive (bshape b) (bn b)) l -> noisy b e l s t ->
  (gap b (read_ft b t) (read_ft b (run b s l)) <= INR (length l) * e + INR (slices l) * (sqrt (INR (bcomp b * points (bshape b))) / 100000000))%R.
Proof. intros b k e l s t G K BK Comp H N. exact (noise_adds b k G K BK Comp e l s t H N). Qed.
Print Assumptions beam_errors_add.
(** The term for the threshold cannot be left out. *)
Theorem fields_drift_apart : exists (b : setup) (f h : vfield), section_grid (bgrid b) (baxis b) /\ bk b = RtoC 1 /\ bcomp b = 1%nat /\
  forall s t, (gap b f h < gap b (read_field b (run b s [SetField f])) (read_field b (run b t [SetField h])))%R.
Proof.
  exists faint, speck, (superposed 1 1 speck speck). split; [exact faint_grid|]. split; [reflexivity|]. split; [reflexivity|]. intros s t.
  assert (forall q, inside (bshape faint) q -> read_ft faint (run faint t [SetField (superposed 1 1 speck speck)]) 0%nat q = RtoC (2 / 100000000)) as F.
  { apply faint_ft; unfold superposed, speck; cbn [idx_eqb Nat.eqb andb]; apply injective_projections; cbn; field. }
  assert (inside (bshape faint) [0; 0; 0]%nat) as I0 by (repeat constructor; lia). assert (inside (bshape faint) [0; 0; 1]%nat) as I1 by (repeat constructor; lia).
  pose proof (field_assignment faint t (superposed 1 1 speck speck) faint_grid eq_refl) as A. specialize (A ltac:(exists [0; 0; 0]%nat; split; [exact I0|]; rewrite F by exact I0; rewrite Cmod_R, Rabs_right; lra)).
  rewrite faint_lost. unfold gap, size. apply sqrt_lt_1_alt. split; [apply Beam_Power.vnorm2_nonneg|].
  unfold vnorm2, norm2. cbn [faint bcomp bshape bgrid rshape rsum_over rsum]. rewrite (A _ I0), (A _ I1). unfold superposed, speck. cbn [idx_eqb Nat.eqb andb]. rewrite !Beam_Power.mod_sq. cbn. lra.
Qed.
Print Assumptions fields_drift_apart.

(** ** Concrete cases *)
(** Any number of slices of a grating is passive, and as many slices are counted. *)
Example gratings_counted : forall n, slices (there (gratings n)) = n /\ section_grid (bgrid sheet) (baxis sheet) /\ Forall (passive (bshape sheet) (bn sheet)) (there (gratings n)).
Proof.
  intros n. split; [|split].
  - unfold there, gratings. induction n as [|n IH]; [reflexivity|]. cbn in *. rewrite IH. reflexivity.
  - exact sheet_grid.
  - unfold there, gratings. apply Forall_forall. intros a Ha. apply in_map_iff in Ha as (m & <- & Hm). apply repeat_spec in Hm. subst m. cbn. intros p Hp. unfold grating. replace (snd _) with 0%R; [lra|]. destruct (idx_eqb p [0; 0; 1]%nat); cbn; field.
Qed.
(** A step with an error in one component of the spectrum. *)
Example noisy_history : forall (s : section), noisy sheet 1 [ReadFt] s {| field_hat := fun c q => field_hat (settle sheet s) c q + (if idx_eqb q [0; 0; 0]%nat then RtoC 1 else 0); pending := pending (settle sheet s) |}.
Proof.
  intros s. cbn [noisy act]. eexists. split; [|split; [|reflexivity]]; [reflexivity|].
  rewrite (gap_read sheet 1) by (reflexivity || apply sheet_grid || lra). cbn [field_hat].
  rewrite (size_same _ _ _ (fun c q => if idx_eqb q [0; 0; 0]%nat then RtoC 1 else RtoC 0)) by (intros; f_equal; ring). apply Rle_trans with (sqrt 1); [|rewrite sqrt_1; lra]. apply sqrt_le_1_alt.
  unfold vnorm2, norm2. cbn [sheet bcomp bshape bgrid rshape rsum_over rsum]. rewrite !Beam_Power.mod_sq. cbn. right. ring.
Qed.
