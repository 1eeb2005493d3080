(** The order of the axes of a beam: C189. *)
From Coq Require Import Reals List Arith Bool ZArith Lia Lra.
Require Import Verif.Base Verif.CSum Verif.Field Verif.Fourier_Model Verif.Fourier_Spec Verif.Vec_Model Verif.Symmetry_Spec.
Require Import Verif.Beam_Model Verif.Beam_Spec Verif.Beam_Proofs Verif.Relabel_Spec Verif.Relabel_Proofs Verif.Cplx.
Import ListNotations.
Local Open Scope R_scope.
Local Open Scope C_scope.

(** The field and the spectrum of a section of which the axes are in another order are those of the section with the axes in that order, whichever the axis of propagation, after an assignment of the field or its spectrum
    and any history of further assignments, reading, and propagation in media. No field is too weak, no distance too short, and no contrast too low for this. *)
Theorem reordered_section : forall (b : setup) (axes : list nat) (x : action) (l : list action) (s t : section),
  section_grid (bgrid b) (baxis b) -> bcomp b = 1%nat \/ bcomp b = 3%nat -> Forall (fun a => (a < 2)%nat) axes -> (exists F, x = SetFt F \/ x = SetField F) ->
  let v := (1 <? bcomp b)%nat in let b' := reordered_setup axes b in
  vagree 3 (bshape b') (read_field b' (run b' t (map (reordered_action v axes) (x :: l)))) (reordered v axes (read_field b (run b s (x :: l)))) /\
  vagree 3 (bshape b') (read_ft b' (run b' t (map (reordered_action v axes) (x :: l)))) (reordered v axes (read_ft b (run b s (x :: l)))).
Proof. intros b axes x l s t G N HA [F X]. apply reordered_read; [exact HA|exact (conj G N)|destruct X as [-> | ->]; exact I]. Qed.
Print Assumptions reordered_section.
(** So for all slices of a beam. *)
Theorem reordered_slices : forall (b : setup) (axes : list nat) (f : vfield) (first step : R) (media : list (option sfield)),
  section_grid (bgrid b) (baxis b) -> bcomp b = 1%nat \/ bcomp b = 3%nat -> Forall (fun a => (a < 2)%nat) axes ->
  let v := (1 <? bcomp b)%nat in let b' := reordered_setup axes b in
  Forall2 (fun h h' : vfield => vagree 3 (bshape b') h' (reordered v axes h))
    (fst (beam_field b (enter b (set_field b f) first step) step media)) (fst (beam_field b' (enter b' (set_field b' (reordered v axes f)) first step) step (reordered_media axes media))).
Proof. intros b axes f first step media G N HA. apply reordered_beam; [exact HA|exact (conj G N)]. Qed.
Print Assumptions reordered_slices.

(** ** Concrete cases *)
(** A vector beam that travels along the first axis, and the same along the last. *)
Definition slab : setup := {| bgrid := {| rshape := [1; 2; 3]%nat; rstep := [1%R; 2%R; 3%R] |}; bfirst := fun c => INR c; bk := (1, 1 / 10)%R; bn := RtoC 1; baxis := 0; bcomp := 3 |}.
Example slab_reordered : section_grid (bgrid slab) (baxis slab) /\ let b' := reordered_setup [0; 1]%nat slab in
  baxis b' = 2%nat /\ bshape b' = [2; 3; 1]%nat /\ rstep (bgrid b') = [2%R; 3%R; 1%R] /\ (bfirst b' 0%nat, bfirst b' 1%nat, bfirst b' 2%nat) = (INR 1, INR 2, INR 0) /\
  forall F i j k, map (fun c => reordered true [0; 1]%nat F c [i; j; k]) [0; 1; 2]%nat = [F 1%nat [k; i; j]; F 2%nat [k; i; j]; F 0%nat [k; i; j]].
Proof.
  split; [|repeat split].
  repeat split; try (cbn; lia); try (repeat constructor; lia). intros c Hc H1. destruct c as [|[|[|]]]; cbn in *; lia || lra.
Qed.
