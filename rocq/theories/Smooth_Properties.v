(** Media that vary along the propagation axis of a beam: C197. *)
From Coq Require Import Reals List Arith Bool ZArith Lia Lra.
Require Import Verif.Base Verif.CSum Verif.Field Verif.Fourier_Model Verif.Fourier_Spec Verif.Vec_Model Verif.Robust_Spec Verif.Robust_Proofs.
Require Import Verif.Beam_Model Verif.Beam_Spec Verif.Beam_Proofs Verif.Beam_Properties Verif.Nearby_Spec Verif.Nearby_Proofs Verif.Neglect_Spec Verif.Neglect_Proofs Verif.Detour_Spec Verif.Detour_Proofs Verif.Divide_Spec Verif.Divide_Proofs Verif.Bounds_Proofs Verif.Smooth_Spec Verif.Smooth_Proofs Verif.Cplx.
Import ListNotations.
Local Open Scope R_scope.
Local Open Scope C_scope.

(** The spectrum behind a medium of which the refractive index varies with depth, taken at the front of each slice, differs for slices of thickness h or less from that for any division of these by no more than in proportion to h: it converges as the slices are made thinner; apart from what is neglected (C194). *)
Theorem smooth_medium_converges : forall (b : setup) (k N L h z : R) (medium : R -> sfield) (F : vfield) (dss : list (list R)) (s s' : section),
  section_grid (bgrid b) (baxis b) -> (0 < k)%R -> bk b = RtoC k -> bcomp b = 1%nat \/ bcomp b = 3%nat -> bn b <> 0 -> (0 <= N)%R -> (0 <= L)%R -> smooth_medium b N L medium -> proper_division dss -> Forall (fun ds => (whole ds <= h)%R) dss ->
  let l := sampled medium z (map whole dss) in let l' := sampled medium z (concat dss) in
  (gap b (read_ft b (run b s (SetFt F :: there l))) (read_ft b (run b s' (SetFt F :: there l'))) <=
   ((k * k * (N * (1 + N)) + k * (L / Cmod (bn b))) * (h * whole (map whole dss)) + all_neglected b k l + all_neglected b k l' + 2 * (k * / 100000000)) * size (bcomp b) (bshape b) F
   + INR (length dss + length (concat dss)) * (sqrt (INR (bcomp b * points (bshape b))) / 100000000))%R.
Proof.
  intros b k N L h z medium F dss s s' G K BK Comp Bn N0 L0 Sm P T l l'. eapply Rle_trans; [exact (beam_smooth b k N L medium G K BK Comp Bn N0 L0 Sm h z dss F s s' P T)|]. fold l l'. unfold slack.
  replace (slices (there l)) with (length dss) by (unfold l; rewrite slices_sampled, map_length; reflexivity). replace (slices (there l')) with (length (concat dss)) by (unfold l'; rewrite slices_sampled; reflexivity). rewrite plus_INR. lra.
Qed.
Print Assumptions smooth_medium_converges.
(** So does the field. *)
Theorem smooth_medium_converges_field : forall (b : setup) (k N L h z : R) (medium : R -> sfield) (f : vfield) (dss : list (list R)) (s s' : section),
  section_grid (bgrid b) (baxis b) -> (0 < k)%R -> bk b = RtoC k -> bcomp b = 1%nat \/ bcomp b = 3%nat -> bn b <> 0 -> (0 <= N)%R -> (0 <= L)%R -> smooth_medium b N L medium -> proper_division dss -> Forall (fun ds => (whole ds <= h)%R) dss ->
  let l := sampled medium z (map whole dss) in let l' := sampled medium z (concat dss) in
  (gap b (read_field b (run b s (SetField f :: there l))) (read_field b (run b s' (SetField f :: there l'))) <=
   ((k * k * (N * (1 + N)) + k * (L / Cmod (bn b))) * (h * whole (map whole dss)) + all_neglected b k l + all_neglected b k l' + 2 * (k * / 100000000)) * size (bcomp b) (bshape b) f
   + INR (length dss + length (concat dss) + 1) * (sqrt (INR (bcomp b)) / 100000000))%R.
Proof.
  intros b k N L h z medium f dss s s' G K BK Comp Bn N0 L0 Sm P T l l'. exact (field_smooth b k N L medium G K BK Comp Bn N0 L0 Sm h z dss f s s' P T).
Qed.
Print Assumptions smooth_medium_converges_field.

(** ** Concrete cases *)
(** A medium with an index that varies between 1 and 3 with depth in one of the points, and is 2 elsewhere; any number of slices, each divided in two. *)
Definition wavy (z : R) : sfield := fun p => if idx_eqb p [0; 0; 1]%nat then RtoC (2 + sin z) else RtoC 2.
Example wavy_smooth : smooth_medium sheet 2 1 wavy.
Proof.
  assert (forall x (y : R), RtoC x / RtoC 1 = RtoC x) as D by (intros; apply injective_projections; cbn; field).
  intros z p _. unfold wavy. cbn [sheet bn]. destruct (idx_eqb p [0; 0; 1]%nat).
  - rewrite (D _ 0%R). split; [cbn; lra|]. rewrite <- RtoC_minus, Cmod_R. split; [pose proof (SIN_bound z); apply Rabs_le; lra|]. intros z'. rewrite <- RtoC_minus, Cmod_R.
    pose proof (cexp_close (0, z)%R (0, z')%R ltac:(cbn; lra) ltac:(cbn; lra)) as Q.
    assert (Cmod ((0, z)%R - (0, z')%R) = Rabs (z - z')) as E by (unfold Cmod, Cminus, Cplus, Copp; cbn; rewrite <- sqrt_Rsqr_abs; f_equal; unfold Rsqr; ring). rewrite E in Q.
    assert (snd (cexp (0, z)%R - cexp (0, z')%R)%C = (sin z - sin z')%R) as S by (unfold cexp, cis; cbn; rewrite exp_0; ring).
    replace (2 + sin z - (2 + sin z'))%R with (snd (cexp (0, z)%R - cexp (0, z')%R)%C) by (rewrite S; ring). rewrite Rmult_1_l. eapply Rle_trans; [|exact Q]. eapply Rle_trans; [|apply Rmax_Cmod]. apply Rmax_r.
  - rewrite (D _ 0%R). split; [cbn; lra|]. rewrite <- RtoC_minus, Cmod_R. split; [rewrite Rabs_pos_eq; lra|]. intros z'. replace (RtoC 2 - RtoC 2) with (RtoC 0) by ring. rewrite Cmod_0, Rmult_1_l. apply Rabs_pos.
Qed.
Example halves : forall n, proper_division (repeat [/ 2; / 2]%R n) /\ Forall (fun ds => (whole ds <= 1)%R) (repeat [/ 2; / 2]%R n).
Proof.
  intros n. split; apply Forall_forall; intros x Hx; apply repeat_spec in Hx; subst x.
  - split; [discriminate|]. repeat constructor; lra.
  - cbn. lra.
Qed.
