(** Beams in opposite directions: C200. *)
From Coq Require Import Reals List Arith Bool ZArith Lia Lra.
Require Import Verif.Base Verif.CSum Verif.Field Verif.Fourier_Model Verif.Fourier_Spec Verif.Vec_Model Verif.Robust_Spec Verif.Robust_Proofs Verif.Symmetry_Spec.
Require Import Verif.Beam_Model Verif.Beam_Spec Verif.Beam_Proofs Verif.Beam_Properties Verif.Nearby_Spec Verif.Neglect_Spec Verif.Neglect_Proofs Verif.Neglect_Properties Verif.Return_Spec Verif.Return_Proofs Verif.Return_Vector Verif.Cplx.
Import ListNotations.
Local Open Scope R_scope.
Local Open Scope C_scope.

(** How much of a field f that arrives behind slices overlaps with a field h is how much of h overlaps with f when it crosses the slices in the opposite order; apart from what is neglected (C194). Both start one slice in front of the media. *)
Theorem beam_reciprocity : forall (b : setup) (k d : R) (f h : vfield) (media : list (option sfield)) (s s' : section),
  section_grid (bgrid b) (baxis b) -> (0 < k)%R -> bk b = RtoC k -> bcomp b = 1%nat -> bn b <> 0 -> (0 < d)%R -> Forall (fun m => passive_slice b (d, m)) media ->
  (Cmod (product 1 (bshape b) h (read_field b (run b s (SetField f :: there (outward d media)))) - product 1 (bshape b) f (read_field b (run b s' (SetField h :: there (inward d media)))))%C <=
   (all_neglected b k (outward d media) + all_neglected b k (inward d media) + 2 * (k * / 100000000)) * (size (bcomp b) (bshape b) f * size (bcomp b) (bshape b) h)
   + (INR (slices (there (outward d media)) + 1) * size (bcomp b) (bshape b) h + INR (slices (there (inward d media)) + 1) * size (bcomp b) (bshape b) f) * / 100000000)%R.
Proof. intros b k d f h media s s' G K BK One Bn D A. exact (field_reciprocal b k d G K BK One Bn media f h s s' D A). Qed.
Print Assumptions beam_reciprocity.
(** The same for vector fields on odd numbers of points, when the polarisation is taken as seen from the other side. *)
Theorem beam_reciprocity_vector : forall (b : setup) (k d : R) (f h : vfield) (media : list (option sfield)) (s s' : section),
  section_grid (bgrid b) (baxis b) -> (0 < k)%R -> bk b = RtoC k -> bcomp b = 3%nat -> bn b <> 0 -> odd_sizes (bshape b) -> (0 < d)%R -> Forall (fun m => passive_slice b (d, m)) media ->
  (Cmod (product 3 (bshape b) (facing (baxis b) h) (read_field b (run b s (SetField f :: there (outward d media)))) - product 3 (bshape b) (facing (baxis b) f) (read_field b (run b s' (SetField h :: there (inward d media)))))%C <=
   (all_neglected b k (outward d media) + all_neglected b k (inward d media) + 2 * (k * / 100000000)) * (size (bcomp b) (bshape b) f * size (bcomp b) (bshape b) h)
   + (INR (slices (there (outward d media)) + 1) * size (bcomp b) (bshape b) h + INR (slices (there (inward d media)) + 1) * size (bcomp b) (bshape b) f) * (sqrt 3 / 100000000))%R.
Proof. intros b k d f h media s s' G K BK Three Bn Odd D A. exact (vfield_reciprocal b k d G K BK Three Bn Odd media f h s s' D A). Qed.
Print Assumptions beam_reciprocity_vector.

(** ** Concrete cases *)
(** Any number of gratings and a different medium behind these: from the other side this comes first. *)
Example unequal_sides : forall n, let media := repeat (Some grating) n ++ [Some (fun _ => (2, 1)%R : C)] in
  Forall (fun m => passive_slice sheet ((2 * PI)%R, m)) media /\ inward (2 * PI) media = ((2 * PI)%R, None) :: ((2 * PI)%R, Some (fun _ => (2, 1)%R : C)) :: gratings n.
Proof.
  intros n media. pose proof PI_RGT_0 as P. split.
  - apply Forall_app. split.
    + apply Forall_forall. intros m Hm. apply repeat_spec in Hm. subst m. apply (proj1 (Forall_forall _ _) (proj1 (neglect_gratings 1))). left. reflexivity.
    + constructor; [|constructor]. split; [cbn [fst]; lra|]. cbn [snd]. intros p _. cbn. lra.
  - unfold inward, outward, media. rewrite rev_app_distr. cbn [rev app map]. do 2 f_equal. unfold gratings. assert (rev (repeat (Some grating) n) = repeat (Some grating) n) as ->.
    { induction n as [|n IH]; [reflexivity|]. cbn [repeat rev]. rewrite IH. clear. induction n as [|n IH]; [reflexivity|]. cbn [repeat app]. rewrite IH. reflexivity. }
    induction n as [|n IH]; [reflexivity|]. cbn [repeat map]. f_equal. exact IH.
Qed.
(** A section for vector fields with odd numbers of points, and the same media. *)
Definition vector_sheet : setup := {| bgrid := bgrid sheet; bfirst := bfirst sheet; bk := bk sheet; bn := bn sheet; baxis := baxis sheet; bcomp := 3 |}.
Example vector_sheet_odd : odd_sizes (bshape vector_sheet) /\ section_grid (bgrid vector_sheet) (baxis vector_sheet) /\ Forall (fun m => passive_slice vector_sheet ((2 * PI)%R, m)) (repeat (Some grating) 5).
Proof.
  split; [repeat constructor|]. split; [exact sheet_grid|]. apply Forall_forall. intros m Hm. apply repeat_spec in Hm. subst m. exact (proj1 (Forall_forall _ _) (proj1 (neglect_gratings 1)) ((2 * PI)%R, Some grating) (or_introl eq_refl)).
Qed.
