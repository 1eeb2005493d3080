(** Errors in the media of a beam: C195. *)
From Coq Require Import Reals List Arith Bool ZArith Lia Lra.
Require Import Verif.Base Verif.CSum Verif.Field Verif.Fourier_Model Verif.Fourier_Spec Verif.Vec_Model Verif.Robust_Spec Verif.Robust_Proofs.
Require Import Verif.Beam_Model Verif.Beam_Spec Verif.Beam_Proofs Verif.Beam_Properties Verif.Nearby_Spec Verif.Nearby_Proofs Verif.Neglect_Spec Verif.Neglect_Proofs Verif.Neglect_Properties Verif.Detour_Spec Verif.Detour_Proofs Verif.Cplx.
Import ListNotations.
Local Open Scope R_scope.
Local Open Scope C_scope.

(** When the thickness and the refractive index of the slices have errors, then the spectrum behind them has an error of no more than the sum of the phase errors, relative to the spectrum in front; apart from what the code neglects in either case (C194). *)
Theorem media_errors_bounded : forall (b : setup) (k e : R) (F : vfield) (l l' : list (R * option sfield)) (s s' : section),
  section_grid (bgrid b) (baxis b) -> (0 < k)%R -> bk b = RtoC k -> bcomp b = 1%nat \/ bcomp b = 3%nat -> bn b <> 0 -> Forall (passive_slice b) l -> Forall (passive_slice b) l' -> similar b k e l l' ->
  (gap b (read_ft b (run b s (SetFt F :: there l))) (read_ft b (run b s' (SetFt F :: there l'))) <=
   (e + all_neglected b k l + all_neglected b k l' + 2 * (k * / 100000000)) * size (bcomp b) (bshape b) F
   + INR (slices (there l) + slices (there l')) * (sqrt (INR (bcomp b * points (bshape b))) / 100000000))%R.
Proof.
  intros b k e F l l' s s' G K BK Comp Bn A A' S. eapply Rle_trans; [exact (beam_detour b k G K BK Comp Bn F l l' e s s' A A' S)|]. unfold slack. rewrite plus_INR. lra.
Qed.
Print Assumptions media_errors_bounded.
(** When only the refractive index is off, by delta at most, then this is the phase that it makes over the total thickness. *)
Theorem index_errors_bounded : forall (b : setup) (k delta : R) (F : vfield) (l l' : list (R * option sfield)) (s s' : section),
  section_grid (bgrid b) (baxis b) -> (0 < k)%R -> bk b = RtoC k -> bcomp b = 1%nat \/ bcomp b = 3%nat -> bn b <> 0 -> Forall (passive_slice b) l -> Forall (passive_slice b) l' -> (0 <= delta)%R ->
  Forall2 (fun x y => fst x = fst y /\ forall p, inside (bshape b) p -> (Cmod (index_in b (snd x) p - index_in b (snd y) p)%C <= delta)%R) l l' ->
  (gap b (read_ft b (run b s (SetFt F :: there l))) (read_ft b (run b s' (SetFt F :: there l'))) <=
   (k * total_thickness l * (delta / Cmod (bn b)) + all_neglected b k l + all_neglected b k l' + 2 * (k * / 100000000)) * size (bcomp b) (bshape b) F
   + INR (slices (there l) + slices (there l')) * (sqrt (INR (bcomp b * points (bshape b))) / 100000000))%R.
Proof.
  intros b k delta F l l' s s' G K BK Comp Bn A A' D H. exact (media_errors_bounded b k _ F l l' s s' G K BK Comp Bn A A' (index_similar b k K Bn delta l l' D A H)).
Qed.
Print Assumptions index_errors_bounded.

(** ** Concrete cases *)
(** Any number of slices of a grating, and as many of one with an index that is 1/1000 larger everywhere. *)
Definition off_grating : sfield := fun p => grating p + RtoC (/ 1000).
Example off_gratings : forall n, let l := gratings n in let l' := repeat ((2 * PI)%R, Some off_grating) n in Forall (passive_slice sheet) l /\ Forall (passive_slice sheet) l' /\
  Forall2 (fun x y => fst x = fst y /\ forall p, inside (bshape sheet) p -> (Cmod (index_in sheet (snd x) p - index_in sheet (snd y) p)%C <= / 1000)%R) l l'.
Proof.
  intros n l l'. split; [apply neglect_gratings|]. pose proof PI_RGT_0. split.
  - apply Forall_forall. intros a Ha. apply repeat_spec in Ha. subst a. split; [cbn [fst]; lra|]. cbn [snd]. intros p Hp. unfold off_grating, grating. replace (snd _) with 0%R; [lra|]. destruct (idx_eqb p [0; 0; 1]%nat); cbn; field.
  - unfold l, l', gratings. induction n as [|n IH]; [constructor|]. cbn [repeat]. constructor; [|exact IH]. split; [reflexivity|]. intros p _. cbn [snd index_in]. unfold off_grating. replace (grating p - (grating p + RtoC (/ 1000))) with (- RtoC (/ 1000)) by ring. rewrite Cmod_opp, Cmod_R, Rabs_pos_eq by lra. lra.
Qed.
