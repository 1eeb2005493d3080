(** Beams of any strength that repeat themselves across their sections: C193. *)
From Coq Require Import Reals List Arith Bool ZArith Lia Lra.
Require Import Verif.Base Verif.CSum Verif.Field Verif.Fourier_Model Verif.Fourier_Spec Verif.Vec_Model Verif.Robust_Spec Verif.Cell_Spec.
Require Import Verif.Beam_Model Verif.Beam_Spec Verif.Beam_Proofs Verif.Beam_Properties Verif.Nearby_Spec Verif.Neglect_Spec Verif.Neglect_Properties Verif.Tiled_Spec Verif.Tiled_Properties Verif.TiledBounds_Proofs Verif.Cplx.
Import ListNotations.
Local Open Scope R_scope.
Local Open Scope C_scope.

(** However weak the field is, behind slices without gain the field of the repeated section differs from the repeated field of one cell by no more than the tolerances of the two (C194). *)
Theorem repeated_beam_bounded : forall (b : setup) (r : list nat) (k : R) (f : vfield) (l : list (R * option sfield)) (s t : section), let b' := repeated_setup r b in
  section_grid (bgrid b) (baxis b) -> section_grid (bgrid b') (baxis b) -> repeats r (bshape b) -> bcomp b = 1%nat \/ bcomp b = 3%nat -> (0 < k)%R -> bk b = RtoC k -> bn b <> 0 -> Forall (passive_slice b) l ->
  (gap b' (read_field b' (run b' t (map (repeated_action (bshape b)) (SetField f :: there l)))) (repeated (bshape b) (read_field b (run b s (SetField f :: there l)))) <=
   2 * ((all_neglected b k l + k * / 100000000) * size (bcomp b) (bshape b') (repeated (bshape b) f)) + (1 + sqrt (INR (fold_right Nat.mul 1%nat r))) * (INR (slices (there l) + 1) * (sqrt (INR (bcomp b)) / 100000000)))%R.
Proof. intros b r k f l s t b' G G' Rp Comp K BK Bn A. exact (repeated_bound b r k G G' Rp Comp K BK Bn l f s t A). Qed.
Print Assumptions repeated_beam_bounded.

(** ** Concrete cases *)
(** It applies to any number of slices of a grating, and any number of periods. *)
Example bounded_periods : forall n m, let r := [1; 1; S m]%nat in
  section_grid (bgrid sheet) (baxis sheet) /\ section_grid (bgrid (repeated_setup r sheet)) (baxis sheet) /\ repeats r (bshape sheet) /\ bcomp sheet = 1%nat /\ bk sheet = RtoC 1 /\ bn sheet <> 0 /\ Forall (passive_slice sheet) (gratings n).
Proof.
  intros n m r. destruct (neglect_gratings n) as (A & B & C & _). destruct (grating_periods {| field_hat := fun _ _ => 0; pending := 0 |} n m) as (D & E & _).
  split; [exact C|]. split; [exact D|]. split; [exact E|]. split; [reflexivity|]. split; [reflexivity|]. split; assumption.
Qed.
