(** The bounds of C194, C195 and C196 for the fields that are assigned and read. *)
From Coq Require Import Reals List Arith Bool ZArith Lia Lra.
Require Import Verif.Base Verif.CSum Verif.Field Verif.Fourier_Model Verif.Fourier_Spec Verif.Vec_Model Verif.Robust_Spec Verif.Robust_Proofs.
Require Import Verif.Beam_Model Verif.Beam_Spec Verif.Beam_Proofs Verif.Beam_Properties Verif.Nearby_Spec Verif.Nearby_Proofs Verif.Neglect_Spec Verif.Neglect_Proofs Verif.Neglect_Properties Verif.Detour_Spec Verif.Detour_Proofs Verif.Divide_Spec Verif.Divide_Proofs Verif.Divide_Properties Verif.Bounds_Proofs Verif.Cplx.
Import ListNotations.
Local Open Scope R_scope.
Local Open Scope C_scope.

(** A field that is assigned and read behind any slices without gain is that of the split-step method in which nothing is neglected, to within the tolerances. *)
Theorem neglect_bounded_field : forall (b : setup) (k : R) (f : vfield) (l : list (R * option sfield)) (s : section),
  section_grid (bgrid b) (baxis b) -> (0 < k)%R -> bk b = RtoC k -> bcomp b = 1%nat \/ bcomp b = 3%nat -> bn b <> 0 -> Forall (passive_slice b) l ->
  (gap b (read_field b (run b s (SetField f :: there l)))
     (fun c => to_space (bgrid b) (bfirst b) (exact_slices b k l (exact_start b k (fun c => to_spectrum (bgrid b) (bfirst b) (f c))) c)) <=
   (all_neglected b k l + k * / 100000000) * size (bcomp b) (bshape b) f + INR (slices (there l) + 1) * (sqrt (INR (bcomp b)) / 100000000))%R.
Proof. intros b k f l s G K BK Comp Bn A. exact (neglect_space b k G K BK Comp Bn f l s A). Qed.
Print Assumptions neglect_bounded_field.
(** Errors in thickness and refractive index change it by no more than the phase errors. *)
Theorem media_errors_bounded_field : forall (b : setup) (k e : R) (f : vfield) (l l' : list (R * option sfield)) (s s' : section),
  section_grid (bgrid b) (baxis b) -> (0 < k)%R -> bk b = RtoC k -> bcomp b = 1%nat \/ bcomp b = 3%nat -> bn b <> 0 -> Forall (passive_slice b) l -> Forall (passive_slice b) l' -> similar b k e l l' ->
  (gap b (read_field b (run b s (SetField f :: there l))) (read_field b (run b s' (SetField f :: there l'))) <=
   (e + all_neglected b k l + all_neglected b k l' + 2 * (k * / 100000000)) * size (bcomp b) (bshape b) f + INR (slices (there l) + slices (there l') + 1) * (sqrt (INR (bcomp b)) / 100000000))%R.
Proof. intros b k e f l l' s s' G K BK Comp Bn A A' S. exact (detour_space b k G K BK Comp Bn f l l' e s s' A A' S). Qed.
Print Assumptions media_errors_bounded_field.
(** And it converges as the slices are made thinner. *)
Theorem slices_converge_field : forall (b : setup) (k N h : R) (f : vfield) (l : layers) (s s' : section),
  section_grid (bgrid b) (baxis b) -> (0 < k)%R -> bk b = RtoC k -> bcomp b = 1%nat \/ bcomp b = 3%nat -> bn b <> 0 -> (0 <= N)%R -> Forall (proper_layer b N) l -> (forall x, In x l -> (whole (fst x) <= h)%R) ->
  (gap b (read_field b (run b s (SetField f :: there (coarse l)))) (read_field b (run b s' (SetField f :: there (fine l)))) <=
   (k * k * (N * (1 + N)) * (h * total_thickness (coarse l)) + all_neglected b k (coarse l) + all_neglected b k (fine l) + 2 * (k * / 100000000)) * size (bcomp b) (bshape b) f
   + INR (slices (there (coarse l)) + slices (there (fine l)) + 1) * (sqrt (INR (bcomp b)) / 100000000))%R.
Proof.
  intros b k N h f l s s' G K BK Comp Bn N0 H T. eapply Rle_trans; [exact (divided_space b k G K BK Comp Bn N f l s s' N0 H)|]. apply Rplus_le_compat_r, Rmult_le_compat_r; [apply size_nonneg|]. do 3 apply Rplus_le_compat_r. apply Rmult_le_compat_l.
  - repeat apply Rmult_le_pos; lra.
  - apply squares_thin. intros x Hx. split; [|apply T, Hx]. rewrite Forall_forall in H. destruct (H x Hx) as (Ne & A & _). left. exact (proj1 (whole_pos b (fst x) (snd x) Ne A)).
Qed.
Print Assumptions slices_converge_field.

(** ** Concrete cases *)
(** The hypotheses are those of the gratings in Neglect_Properties, Detour_Properties and Divide_Properties; here with all together. *)
Example field_gratings : forall n, section_grid (bgrid sheet) (baxis sheet) /\ bk sheet = RtoC 1 /\ bcomp sheet = 1%nat /\ bn sheet <> 0 /\ Forall (passive_slice sheet) (gratings n) /\
  Forall (proper_layer sheet 1) (divided_gratings n) /\ forall x, In x (divided_gratings n) -> (whole (fst x) <= 2 * PI)%R.
Proof.
  intros n. destruct (neglect_gratings n) as (A & B & C & _). split; [exact C|]. split; [reflexivity|]. split; [reflexivity|]. split; [exact B|]. split; [exact A|]. split; [apply gratings_divided|].
  intros x Hx. apply repeat_spec in Hx. subst x. cbn. lra.
Qed.
