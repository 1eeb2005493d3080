(** Thinner slices: C196. *)
From Coq Require Import Reals List Arith Bool ZArith Lia Lra.
Require Import Verif.Base Verif.CSum Verif.Field Verif.Fourier_Model Verif.Fourier_Spec Verif.Vec_Model Verif.Robust_Spec Verif.Robust_Proofs.
Require Import Verif.Beam_Model Verif.Beam_Spec Verif.Beam_Proofs Verif.Beam_Properties Verif.Nearby_Spec Verif.Nearby_Proofs Verif.Neglect_Spec Verif.Neglect_Proofs Verif.Neglect_Properties Verif.Detour_Spec Verif.Detour_Proofs Verif.Divide_Spec Verif.Divide_Proofs Verif.Cplx.
Import ListNotations.
Local Open Scope R_scope.
Local Open Scope C_scope.

(** Dividing the layers of a medium into thinner slices, in any way, changes the spectrum behind it, relative to that in front, by no more than the squares of the thicknesses of the layers times the wavenumber squared and N (1 + N), for a contrast up to N; apart from what the code neglects in either case (C194). *)
Theorem slices_divided : forall (b : setup) (k N : R) (F : vfield) (l : layers) (s s' : section),
  section_grid (bgrid b) (baxis b) -> (0 < k)%R -> bk b = RtoC k -> bcomp b = 1%nat \/ bcomp b = 3%nat -> bn b <> 0 -> (0 <= N)%R -> Forall (proper_layer b N) l ->
  (gap b (read_ft b (run b s (SetFt F :: there (coarse l)))) (read_ft b (run b s' (SetFt F :: there (fine l)))) <=
   (k * k * (N * (1 + N)) * squares l + all_neglected b k (coarse l) + all_neglected b k (fine l) + 2 * (k * / 100000000)) * size (bcomp b) (bshape b) F
   + INR (slices (there (coarse l)) + slices (there (fine l))) * (sqrt (INR (bcomp b * points (bshape b))) / 100000000))%R.
Proof.
  intros b k N F l s s' G K BK Comp Bn N0 H. eapply Rle_trans; [exact (beam_divided b k G K BK Comp Bn N F l s s' N0 H)|]. unfold slack. rewrite plus_INR. lra.
Qed.
Print Assumptions slices_divided.
(** So it converges as the slices are made thinner: slices of thickness h and less are off by no more than in proportion to h, for the same total thickness. *)
Theorem slices_converge : forall (b : setup) (k N h : R) (F : vfield) (l : layers) (s s' : section),
  section_grid (bgrid b) (baxis b) -> (0 < k)%R -> bk b = RtoC k -> bcomp b = 1%nat \/ bcomp b = 3%nat -> bn b <> 0 -> (0 <= N)%R -> Forall (proper_layer b N) l -> (forall x, In x l -> (whole (fst x) <= h)%R) ->
  (gap b (read_ft b (run b s (SetFt F :: there (coarse l)))) (read_ft b (run b s' (SetFt F :: there (fine l)))) <=
   (k * k * (N * (1 + N)) * (h * total_thickness (coarse l)) + all_neglected b k (coarse l) + all_neglected b k (fine l) + 2 * (k * / 100000000)) * size (bcomp b) (bshape b) F
   + INR (slices (there (coarse l)) + slices (there (fine l))) * (sqrt (INR (bcomp b * points (bshape b))) / 100000000))%R.
Proof.
  intros b k N h F l s s' G K BK Comp Bn N0 H T. eapply Rle_trans; [exact (slices_divided b k N F l s s' G K BK Comp Bn N0 H)|]. apply Rplus_le_compat_r, Rmult_le_compat_r; [apply size_nonneg|]. do 3 apply Rplus_le_compat_r. apply Rmult_le_compat_l.
  - repeat apply Rmult_le_pos; lra.
  - apply squares_thin. intros x Hx. split; [|apply T, Hx]. rewrite Forall_forall in H. destruct (H x Hx) as (Ne & A & _). left. exact (proj1 (whole_pos b (fst x) (snd x) Ne A)).
Qed.
Print Assumptions slices_converge.

(** ** Concrete cases *)
(** Any number of layers of a grating, each divided into a third and two thirds. *)
Definition divided_gratings (n : nat) : layers := repeat ([2 * PI / 3; 4 * PI / 3]%R, Some grating) n.
Example gratings_divided : forall n, Forall (proper_layer sheet 1) (divided_gratings n) /\ coarse (divided_gratings n) = gratings n /\ length (fine (divided_gratings n)) = (2 * n)%nat.
Proof.
  intros n. pose proof PI_RGT_0. split; [|split].
  - apply Forall_forall. intros x Hx. apply repeat_spec in Hx. subst x. split; [discriminate|]. cbn [fst snd]. split.
    + intros d Hd. split; [cbn [In] in Hd; cbn [fst]; destruct Hd as [<-|[<-|[]]]; lra|]. pose proof (proj1 (neglect_gratings 1)) as A. apply Forall_inv in A. exact (proj2 A).
    + intros p _. cbn [index_in]. unfold grating. cbn [sheet bn]. destruct (idx_eqb p [0; 0; 1]%nat).
      * replace (RtoC 2 / RtoC 1 - 1) with (RtoC 1) by (apply injective_projections; cbn; field). rewrite Cmod_1. lra.
      * replace (RtoC 1 / RtoC 1 - 1) with (RtoC 0) by (apply injective_projections; cbn; field). rewrite Cmod_0. lra.
  - unfold divided_gratings, gratings, coarse. induction n as [|n IH]; [reflexivity|]. cbn [repeat map]. rewrite IH. f_equal. cbn [fst snd whole fold_right]. f_equal. field.
  - unfold divided_gratings, fine. induction n as [|n IH]; [reflexivity|]. cbn [repeat flat_map fst snd map]. rewrite app_length, IH. cbn [length]. lia.
Qed.
