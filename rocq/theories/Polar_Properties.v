(** Scalar beams and polarised beams: C192. *)
From Coq Require Import Reals List Arith Bool ZArith Lia Lra.
Require Import Verif.Base Verif.CSum Verif.Field Verif.Fourier_Model Verif.Fourier_Spec Verif.Vec_Model.
Require Import Verif.Beam_Model Verif.Beam_Spec Verif.Beam_Proofs Verif.Polar_Spec Verif.Polar_Proofs Verif.Cplx.
Import ListNotations.
Local Open Scope R_scope.
Local Open Scope C_scope.

(** A vector field that points along an axis of a single point, perpendicular to the direction of propagation, remains so, and its size is that of the scalar field after the same history: any assignments, reading, and propagation in media,
    with or without absorption or gain, also of the background. *)
Theorem polarised_section : forall (b : setup) (axis : nat) (x : action) (l : list action) (s t : section),
  section_grid (bgrid b) (baxis b) -> bcomp b = 3%nat -> (axis < 3)%nat -> axis <> baxis b -> nth axis (bshape b) 0%nat = 1%nat -> (exists F, x = SetFt F \/ x = SetField F) ->
  let b1 := scalar_setup b in
  vagree 3 (bshape b) (read_field b (run b t (map (polarised_action axis) (x :: l)))) (polarised axis (read_field b1 (run b1 s (x :: l)))) /\
  vagree 3 (bshape b) (read_ft b (run b t (map (polarised_action axis) (x :: l)))) (polarised axis (read_ft b1 (run b1 s (x :: l)))).
Proof. intros b axis x l s t G Three A Across Thin X. exact (section_upright b axis G Three A Across Thin x l s t X). Qed.
Print Assumptions polarised_section.
(** So for all slices of a beam. *)
Theorem polarised_slices : forall (b : setup) (axis : nat) (f : vfield) (first step : R) (media : list (option sfield)),
  section_grid (bgrid b) (baxis b) -> bcomp b = 3%nat -> (axis < 3)%nat -> axis <> baxis b -> nth axis (bshape b) 0%nat = 1%nat ->
  let b1 := scalar_setup b in
  Forall2 (fun h h' : vfield => vagree 3 (bshape b) h' (polarised axis h))
    (fst (beam_field b1 (enter b1 (set_field b1 f) first step) step media)) (fst (beam_field b (enter b (set_field b (polarised axis f)) first step) step media)).
Proof. intros b axis f first step media G Three A Across Thin. exact (beam_upright b axis G Three A Across Thin f first step media). Qed.
Print Assumptions polarised_slices.

(** ** Concrete cases *)
(** A sheet of light in an absorbing background, polarised along its normal. *)
Definition light_sheet : setup := {| bgrid := {| rshape := [1; 1; 5]%nat; rstep := [1%R; 0%R; 2%R] |}; bfirst := fun c => INR c; bk := (1, 1 / 10)%R; bn := (1, 1 / 10)%R; baxis := 0; bcomp := 3 |}.
Example light_sheet_polarised : section_grid (bgrid light_sheet) (baxis light_sheet) /\ 1%nat <> baxis light_sheet /\ nth 1 (bshape light_sheet) 0%nat = 1%nat /\
  forall F p, map (fun c => polarised 1 F c p) [0; 1; 2]%nat = [RtoC 0; F 0%nat p; RtoC 0].
Proof.
  split; [|repeat split; cbn; lia].
  repeat split; try (cbn; lia); try (repeat constructor; lia). intros c Hc H1. destruct c as [|[|[|]]]; cbn in *; lia || lra.
Qed.
