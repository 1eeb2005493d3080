(** What a beam neglects: C194. *)
From Coq Require Import Reals List Arith Bool ZArith Lia Lra.
Require Import Verif.Base Verif.CSum Verif.Field Verif.Fourier_Model Verif.Fourier_Spec Verif.Vec_Model Verif.Robust_Spec Verif.Robust_Proofs.
Require Import Verif.Beam_Model Verif.Beam_Spec Verif.Beam_Proofs Verif.Beam_Properties Verif.Nearby_Spec Verif.Nearby_Proofs Verif.Neglect_Spec Verif.Neglect_Proofs Verif.Cplx.
Import ListNotations.
Local Open Scope R_scope.
Local Open Scope C_scope.

(** Whatever the field and the slices without gain, the spectrum that is read differs from that of the split-step method in which nothing is neglected by no more than the tolerances allow: relative to the spectrum in front, the sum of the errors in the phases of the slices and that of the distance; and 1e-8 per point and component for every slice. *)
Theorem neglect_bounded : forall (b : setup) (k : R) (F : vfield) (l : list (R * option sfield)) (s : section),
  section_grid (bgrid b) (baxis b) -> (0 < k)%R -> bk b = RtoC k -> bcomp b = 1%nat \/ bcomp b = 3%nat -> bn b <> 0 -> Forall (passive_slice b) l ->
  (gap b (read_ft b (run b s (SetFt F :: there l))) (exact_slices b k l (exact_start b k F)) <=
   (all_neglected b k l + k * / 100000000) * size (bcomp b) (bshape b) F + INR (slices (there l)) * (sqrt (INR (bcomp b * points (bshape b))) / 100000000))%R.
Proof. intros b k F l s G K BK Comp Bn H. exact (beam_error b k G K BK Comp Bn F l s H). Qed.
Print Assumptions neglect_bounded.
(** In terms of the total thickness, when the refractive indices are at most N: how it is divided into slices hardly matters. *)
Theorem neglect_bounded_total : forall (b : setup) (k N : R) (F : vfield) (l : list (R * option sfield)) (s : section),
  section_grid (bgrid b) (baxis b) -> (0 < k)%R -> bk b = RtoC k -> bcomp b = 1%nat \/ bcomp b = 3%nat -> bn b <> 0 -> Forall (passive_slice b) l ->
  (0 <= N)%R -> (forall x n, In x l -> snd x = Some n -> (Cmod (n [0; 0; 0]%nat) <= N)%R) ->
  (gap b (read_ft b (run b s (SetFt F :: there l))) (exact_slices b k l (exact_start b k F)) <=
   k * (total_thickness l * (/ 100000000 + (/ 100000000 + / 100000 * N) / Cmod (bn b)) + INR (length l + 1) * / 100000000) * size (bcomp b) (bshape b) F
   + INR (slices (there l)) * (sqrt (INR (bcomp b * points (bshape b))) / 100000000))%R.
Proof.
  intros b k N F l s G K BK Comp Bn H N0 HN. pose proof (neglect_bounded b k F l s G K BK Comp Bn H) as E. pose proof (total_neglected b k K Bn N l HN N0 H) as T. pose proof (size_nonneg (bcomp b) (bshape b) F) as P.
  eapply Rle_trans; [exact E|]. apply Rplus_le_compat_r, Rmult_le_compat_r; [exact P|]. rewrite plus_INR. change (INR 1) with 1%R. rewrite Rmult_plus_distr_r, Rmult_1_l, <- Rplus_assoc, (Rmult_plus_distr_l k). apply Rplus_le_compat_r. exact T.
Qed.
Print Assumptions neglect_bounded_total.

(** ** Concrete cases *)
(** A hundred slices, or any number, of a grating meet the hypotheses, and the total is theirs. *)
Example neglect_gratings : forall n, Forall (passive_slice sheet) (gratings n) /\ bn sheet <> 0 /\ section_grid (bgrid sheet) (baxis sheet) /\ total_thickness (gratings n) = (INR n * (2 * PI))%R.
Proof.
  intros n. split; [|split; [|split; [exact sheet_grid|]]].
  - unfold gratings. apply Forall_forall. intros a Ha. apply repeat_spec in Ha. subst a. pose proof PI_RGT_0. split; [cbn [fst]; lra|]. cbn [snd]. intros p Hp. unfold grating. replace (snd _) with 0%R; [lra|]. destruct (idx_eqb p [0; 0; 1]%nat); cbn; field.
  - cbn. intros E. injection E. lra.
  - unfold gratings. induction n as [|n IH]; [cbn; ring|]. cbn [repeat total_thickness fold_right]. fold (total_thickness (repeat ((2 * PI)%R, Some grating) n)). rewrite S_INR, IH. cbn [fst]. ring.
Qed.
