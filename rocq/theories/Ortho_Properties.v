(** Slices without gain or loss: C201. *)
From Coq Require Import Reals List Arith Bool ZArith Lia Lra.
Require Import Verif.Base Verif.CSum Verif.Field Verif.Fourier_Model Verif.Fourier_Spec Verif.Vec_Model Verif.Robust_Spec Verif.Robust_Proofs.
Require Import Verif.Beam_Model Verif.Beam_Spec Verif.Beam_Proofs Verif.Beam_Properties Verif.Nearby_Spec Verif.Neglect_Spec Verif.Ortho_Spec Verif.Ortho_Proofs Verif.Cplx.
Import ListNotations.
Local Open Scope R_scope.
Local Open Scope C_scope.

(** The inner product of two scalar fields is the same behind the slices as in front, apart from what is neglected. *)
Theorem overlap_conserved : forall (b : setup) (k : R) (f h : vfield) (l : list (R * option sfield)) (s s' : section),
  section_grid (bgrid b) (baxis b) -> (0 < k)%R -> bk b = RtoC k -> bcomp b = 1%nat -> bn b <> 0 -> Forall (lossless_slice b) l ->
  (Cmod (ip (bshape b) (read_field b (run b s (SetField f :: there l)) 0%nat) (read_field b (run b s' (SetField h :: there l)) 0%nat) - ip (bshape b) (f 0%nat) (h 0%nat))%C <=
   tolerance b k l f * (size (bcomp b) (bshape b) h + tolerance b k l h) + size (bcomp b) (bshape b) f * tolerance b k l h)%R.
Proof. intros b k f h l s s' G K BK One Bn A. exact (read_ip b k G K BK One Bn l f h s s' A). Qed.
Print Assumptions overlap_conserved.
(** So is the norm of the field: also of fields and media that are too weak to be noticed (compare C95). *)
Theorem norm_conserved : forall (b : setup) (k : R) (f : vfield) (l : list (R * option sfield)) (s : section),
  section_grid (bgrid b) (baxis b) -> (0 < k)%R -> bk b = RtoC k -> bcomp b = 1%nat -> bn b <> 0 -> Forall (lossless_slice b) l ->
  (Rabs (size (bcomp b) (bshape b) (read_field b (run b s (SetField f :: there l))) - size (bcomp b) (bshape b) f) <= tolerance b k l f)%R.
Proof. intros b k f l s G K BK One Bn A. exact (read_size b k G K BK One Bn l f s A). Qed.
Print Assumptions norm_conserved.

(** ** Concrete cases *)
(** Any number of gratings; and two orthogonal fields. *)
Example lossless_gratings : forall n, Forall (lossless_slice sheet) (gratings n).
Proof.
  intros n. apply Forall_forall. intros x Hx. apply repeat_spec in Hx. subst x. pose proof PI_RGT_0. split; [cbn [fst]; lra|]. cbn [snd]. intros p _. unfold grating. destruct (idx_eqb p [0; 0; 1]%nat); cbn; field.
Qed.
Example orthogonal_fields : let f : sfield := fun p => if idx_eqb p [0; 0; 2]%nat then 0 else 1 in let h : sfield := fun p => if idx_eqb p [0; 0; 1]%nat then - (1) else f p in ip (bshape sheet) f h = 0 /\ norm2 (bshape sheet) f = 2%R.
Proof.
  cbv zeta. split.
  - unfold ip. cbn [sheet bshape bgrid rshape sum_over csum]. unfold idx_eqb. cbn. apply injective_projections; cbn; ring.
  - unfold norm2. cbn [sheet bshape bgrid rshape rsum_over rsum]. unfold idx_eqb. cbn -[Cmod]. rewrite Cmod_0, Cmod_1. ring.
Qed.
