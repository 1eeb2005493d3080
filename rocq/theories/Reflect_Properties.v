(** Mirror images of beams: C187. *)
From Coq Require Import Reals List Arith Bool ZArith Lia Lra.
Require Import Verif.Base Verif.CSum Verif.Field Verif.Fourier_Model Verif.Fourier_Spec Verif.Vec_Model Verif.Symmetry_Spec.
Require Import Verif.Beam_Model Verif.Beam_Spec Verif.Beam_Proofs Verif.Reflect_Spec Verif.Reflect_Proofs Verif.Cplx.
Import ListNotations.
Local Open Scope R_scope.
Local Open Scope C_scope.

(** The mirror image of the assigned fields and of the media gives the mirror image of the field, after any history of propagation, reading, and assigning,
    for a mirror perpendicular to a transverse axis. No field is too weak, no distance too short, and no contrast too low for this. Missing: vector fields
    with an even number of points along the axis. *)
Theorem mirrored_section_partial : forall (b : setup) (axis : nat) (f f' : vfield) (l l' : list action) (s t : section),
  let v := (1 <? bcomp b)%nat in
  section_grid (bgrid b) (baxis b) -> axis <> baxis b -> (bcomp b <= 3)%nat -> (v = true -> Nat.odd (nth axis (bshape b) 1%nat) = true) ->
  vagree 3 (bshape b) f' (mirrored v axis (bshape b) f) -> Forall2 (mirror_image v axis (bshape b)) l l' ->
  vagree 3 (bshape b) (read_field b (run b t (SetField f' :: l'))) (mirrored v axis (bshape b) (read_field b (run b s (SetField f :: l)))).
Proof. intros b axis f f' l l' s t v G M Cp Od. exact (run_mirrored b axis G M Cp Od f f' l l' s t). Qed.
Print Assumptions mirrored_section_partial.
(** So for all slices of a beam. *)
Theorem mirrored_beam_partial : forall (b : setup) (axis : nat) (f f' : vfield) (first step : R) (media media' : list (option sfield)),
  let v := (1 <? bcomp b)%nat in
  section_grid (bgrid b) (baxis b) -> axis <> baxis b -> (bcomp b <= 3)%nat -> (v = true -> Nat.odd (nth axis (bshape b) 1%nat) = true) ->
  vagree 3 (bshape b) f' (mirrored v axis (bshape b) f) -> Forall2 (fun n n' => mirror_image v axis (bshape b) (Propagate 0 n) (Propagate 0 n')) media media' ->
  forall c p, (c < 3)%nat -> inside (bshape b) p ->
    map (fun f : vfield => f c p) (fst (beam_field b (enter b (set_field b f') first step) step media')) =
    map (fun f : vfield => mirrored v axis (bshape b) f c p) (fst (beam_field b (enter b (set_field b f) first step) step media)).
Proof.
  intros b axis f f' first step media media' v G M Cp Od Hf H c p Hc Hp. apply beam_mirrored; try assumption. unfold enter.
  apply (act_images b axis G M Cp Od _ _ (Propagate (first - step) None) (Propagate (first - step) None)); [reflexivity|]. apply set_field_images; assumption.
Qed.
Print Assumptions mirrored_beam_partial.
(** The field of a symmetric scalar beam in symmetric media stays symmetric. *)
Theorem symmetric_beam : forall (b : setup) (axis : nat) (f : vfield) (l : list action) (s : section),
  section_grid (bgrid b) (baxis b) -> axis <> baxis b -> bcomp b = 1%nat -> vagree 3 (bshape b) f (mirrored false axis (bshape b) f) -> Forall (fun x => mirror_image false axis (bshape b) x x) l ->
  forall p, inside (bshape b) p -> read_field b (run b s (SetField f :: l)) 0%nat (opposite axis (bshape b) p) = read_field b (run b s (SetField f :: l)) 0%nat p.
Proof.
  intros b axis f l s G M One F H p Hp. assert ((1 <? bcomp b)%nat = false) as V by (rewrite One; reflexivity).
  assert (Forall2 (mirror_image false axis (bshape b)) l l) as H2 by (induction H; constructor; assumption).
  pose proof (mirrored_section_partial b axis f f l l s s G M ltac:(lia) ltac:(rewrite V; discriminate) ltac:(rewrite V; exact F) ltac:(rewrite V; exact H2) 0%nat p ltac:(lia) Hp) as Q. rewrite V in Q. symmetry. exact Q.
Qed.
Print Assumptions symmetric_beam.
(** With an even number of points, the spectrum of a vector field has a component with a wave vector on one side of the axis only. *)
Theorem mirrored_vector_refuted : exists (b : setup) (axis : nat) (f : vfield),
  section_grid (bgrid b) (baxis b) /\ axis <> baxis b /\ bcomp b = 3%nat /\
  forall s t, ~ vagree 3 (bshape b) (read_field b (run b t [SetField (mirrored true axis (bshape b) f)])) (mirrored true axis (bshape b) (read_field b (run b s [SetField f]))).
Proof.
  exists couple, 2%nat, (alternating 1). split; [exact couple_grid|]. split; [discriminate|]. split; [reflexivity|]. intros s t H.
  specialize (H 0%nat [0; 0; 0]%nat ltac:(lia) ltac:(repeat constructor)). change (mirrored true 2 (bshape couple) ?F 0%nat [0; 0; 0]%nat) with (F 0%nat [0; 0; 0]%nat) in H.
  rewrite (couple_read (-1)) in H by first [right; reflexivity | exact alternating_mirrored].
  rewrite (couple_read 1) in H by first [left; reflexivity | intros c p _ _; reflexivity]. apply (f_equal fst) in H. cbn in H. assert (0 < sqrt 3)%R by (apply sqrt_lt_R0; lra). lra.
Qed.
Print Assumptions mirrored_vector_refuted.

(** ** Concrete cases *)
(** A vector beam across three points, with a medium that is not symmetric. *)
Definition trio : setup := {| bgrid := {| rshape := [1; 1; 3]%nat; rstep := [1%R; 0%R; 1%R] |}; bfirst := fun _ => (1 / 2)%R; bk := (1, 1 / 10)%R; bn := RtoC 1; baxis := 0; bcomp := 3 |}.
Definition prism : sfield := fun p => if idx_eqb p [0; 0; 1]%nat then (3 / 2, 1 / 10)%R else RtoC 1.
Example trio_hypotheses : section_grid (bgrid trio) (baxis trio) /\ 2%nat <> baxis trio /\ Nat.odd (nth 2 (bshape trio) 1%nat) = true /\
  Forall2 (mirror_image true 2 (bshape trio)) [Propagate 1 (Some prism); ReadFt; Propagate (-1) None; ReadField] [Propagate 1 (Some (mirrored_medium 2 (bshape trio) prism)); ReadFt; Propagate (-1) None; ReadField] /\
  mirrored_medium 2 (bshape trio) prism [0; 0; 1]%nat <> prism [0; 0; 1]%nat.
Proof.
  split; [|split; [discriminate|split; [reflexivity|split; [|]]]].
  - repeat split; try (cbn; lia); try (repeat constructor; lia). intros c Hc H. destruct c as [|[|[|]]]; cbn in *; lia || lra.
  - repeat (apply Forall2_cons || apply Forall2_nil); try exact I; try reflexivity. split; [reflexivity|]. intros p _. reflexivity.
  - intros H. apply (f_equal fst) in H. cbn in H. lra.
Qed.
(** A lens, on three points of which the second and the third are on both sides. *)
Definition lens : sfield := fun p => if idx_eqb p [0; 0; 0]%nat then RtoC 2 else RtoC 1.
Example lens_symmetric : mirror_image false 2 [1; 1; 3]%nat (Propagate 1 (Some lens)) (Propagate 1 (Some lens)) /\ lens [0; 0; 0]%nat <> lens [0; 0; 1]%nat.
Proof.
  split; [split; [reflexivity|]|intros H; apply (f_equal fst) in H; cbn in H; lra].
  intros p Hp. inversion Hp as [|? a ? p1 A Hp1]; subst. inversion Hp1 as [|? a1 ? p2 A1 Hp2]; subst. inversion Hp2 as [|? a2 ? p3 A2 Hp3]; subst. inversion Hp3; subst.
  assert (a = 0)%nat as -> by lia. assert (a1 = 0)%nat as -> by lia. assert (a2 = 0 \/ a2 = 1 \/ a2 = 2)%nat as [->|[->| ->]] by lia; reflexivity.
Qed.
