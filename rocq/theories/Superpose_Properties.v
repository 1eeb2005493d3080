(** Superposition of beams: C188. *)
From Coq Require Import Reals List Arith Bool ZArith Lia Lra.
Require Import Verif.Base Verif.CSum Verif.Field Verif.Fourier_Model Verif.Fourier_Spec Verif.Vec_Model.
Require Import Verif.Beam_Model Verif.Beam_Spec Verif.Beam_Proofs Verif.Beam_Properties Verif.Superpose_Spec Verif.Superpose_Proofs Verif.Cplx.
Import ListNotations.
Local Open Scope R_scope.
Local Open Scope C_scope.

(** In media without structure the spectrum of a superposition is the superposition of the spectra: scalar or vector fields, absorbing backgrounds, and after any history of propagation and reading. *)
Theorem superposed_spectrum : forall (b : setup) (x y : C) (f h : vfield) (l : list action) (s t u : section), Forall (flat_medium (bshape b)) l ->
  read_ft b (run b u (SetField (superposed x y f h) :: l)) = superposed x y (read_ft b (run b s (SetField f :: l))) (read_ft b (run b t (SetField h :: l))).
Proof. intros b x y f h l s t u H. exact (read_joint b x y _ _ _ (run_flat b x y l H _ _ _ (set_field_joint b x y f h))). Qed.
Print Assumptions superposed_spectrum.
(** So it is for an assigned spectrum. *)
Theorem superposed_assigned_spectrum : forall (b : setup) (x y : C) (F H : vfield) (l : list action) (s t u : section), Forall (flat_medium (bshape b)) l ->
  read_ft b (run b u (SetFt (superposed x y F H) :: l)) = superposed x y (read_ft b (run b s (SetFt F :: l))) (read_ft b (run b t (SetFt H :: l))).
Proof. intros b x y F H l s t u L. exact (read_joint b x y _ _ _ (run_flat b x y l L _ _ _ (set_ft_joint b x y F H))). Qed.
Print Assumptions superposed_assigned_spectrum.
(** In any media, the spectrum and the field of a superposition are those of its parts superposed, as long as none of the three is too weak to be seen. *)
Theorem superposed_field_partial : forall (b : setup) (k : R) (x y : C) (f h : vfield) (l : list action) (s t u : section),
  (0 < k)%R -> bk b = RtoC k -> section_grid (bgrid b) (baxis b) -> Forall passes l ->
  (forall i, (i <= length l)%nat -> in_sight b (read_ft b (run b s (SetField f :: firstn i l))) /\ in_sight b (read_ft b (run b t (SetField h :: firstn i l))) /\
    in_sight b (read_ft b (run b u (SetField (superposed x y f h) :: firstn i l)))) ->
  read_ft b (run b u (SetField (superposed x y f h) :: l)) = superposed x y (read_ft b (run b s (SetField f :: l))) (read_ft b (run b t (SetField h :: l))) /\
  read_field b (run b u (SetField (superposed x y f h) :: l)) = superposed x y (read_field b (run b s (SetField f :: l))) (read_field b (run b t (SetField h :: l))).
Proof.
  intros b k x y f h l s t u K BK G H V. destruct (run_joint b x y k K BK G l H _ _ _ (set_field_joint b x y f h) V) as [J R]. split; [exact (read_joint b x y _ _ _ J)|exact R].
Qed.
Print Assumptions superposed_field_partial.
Theorem superposed_media_partial : forall (b : setup) (k : R) (x y : C) (F H : vfield) (l : list action) (s t u : section),
  (0 < k)%R -> bk b = RtoC k -> section_grid (bgrid b) (baxis b) -> Forall passes l ->
  (forall i, (i <= length l)%nat -> in_sight b (read_ft b (run b s (SetFt F :: firstn i l))) /\ in_sight b (read_ft b (run b t (SetFt H :: firstn i l))) /\
    in_sight b (read_ft b (run b u (SetFt (superposed x y F H) :: firstn i l)))) ->
  read_ft b (run b u (SetFt (superposed x y F H) :: l)) = superposed x y (read_ft b (run b s (SetFt F :: l))) (read_ft b (run b t (SetFt H :: l))) /\
  read_field b (run b u (SetFt (superposed x y F H) :: l)) = superposed x y (read_field b (run b s (SetFt F :: l))) (read_field b (run b t (SetFt H :: l))).
Proof.
  intros b k x y F H l s t u K BK G L V. destruct (run_joint b x y k K BK G l L _ _ _ (set_ft_joint b x y F H) V) as [J R]. split; [exact (read_joint b x y _ _ _ J)|exact R].
Qed.
Print Assumptions superposed_media_partial.
(** A weak field reads as zero, though twice that field reads as it is. *)
Theorem superposed_field_refuted : exists (b : setup) (x y : C) (f h : vfield), section_grid (bgrid b) (baxis b) /\ bcomp b = 1%nat /\
  forall s t u, read_field b (run b u [SetField (superposed x y f h)]) <> superposed x y (read_field b (run b s [SetField f])) (read_field b (run b t [SetField h])).
Proof.
  exists faint, 1, 1, speck, speck. split; [exact faint_grid|]. split; [reflexivity|]. intros s t u E. rewrite !faint_lost in E.
  assert (forall q, inside (bshape faint) q -> read_ft faint (run faint u [SetField (superposed 1 1 speck speck)]) 0%nat q = RtoC (2 / 100000000)) as F.
  { apply faint_ft; unfold superposed, speck; cbn [idx_eqb Nat.eqb andb]; apply injective_projections; cbn; field. }
  assert (inside (bshape faint) [0; 0; 0]%nat) as I0 by (repeat constructor; lia).
  pose proof (field_assignment faint u (superposed 1 1 speck speck) faint_grid eq_refl) as A. specialize (A ltac:(exists [0; 0; 0]%nat; split; [exact I0|]; rewrite F by exact I0; rewrite Cmod_R, Rabs_right; lra) [0; 0; 0]%nat I0).
  rewrite E in A. unfold superposed, speck in A. cbn [idx_eqb Nat.eqb andb] in A. apply (f_equal fst) in A. cbn in A. lra.
Qed.
Print Assumptions superposed_field_refuted.

(** ** Concrete cases *)
(** superposed_media_partial applies to any number of slices of a grating with structure. *)
Example gratings_superposed : forall s n, Forall passes (there (gratings n)) /\ (1 <= n -> ~ Forall (flat_medium (bshape sheet)) (there (gratings n)))%nat /\
  forall i, (i <= length (there (gratings n)))%nat -> in_sight sheet (read_ft sheet (run sheet s (SetFt flat :: firstn i (there (gratings n))))) /\
    in_sight sheet (read_ft sheet (run sheet s (SetFt (superposed Ci (1 - Ci) flat flat) :: firstn i (there (gratings n))))).
Proof.
  intros s n. split; [|split].
  - unfold there. apply Forall_forall. intros a Ha. apply in_map_iff in Ha as (m & <- & _). exact I.
  - intros Hn H. destruct n as [|n]; [lia|]. inversion H as [|a l A _]. cbn in A. specialize (A [0; 0; 1]%nat ltac:(repeat constructor)). unfold grating in A. cbn in A. apply (f_equal fst) in A. cbn in A. lra.
  - assert (superposed Ci (1 - Ci) flat flat = flat) as ->.
    { unfold superposed, flat. apply FunctionalExtensionality.functional_extensionality. intros c. apply FunctionalExtensionality.functional_extensionality. intros q. ring. }
    intros i Hi. unfold there in *. rewrite map_length in Hi. rewrite firstn_map. destruct (proj2 (gratings_bright s n) i Hi) as (q & Hq & L).
    enough (in_sight sheet (read_ft sheet (run sheet s (SetFt flat :: there (firstn i (gratings n)))))) as Q by (split; exact Q). left. exists 0%nat, q. split; [cbn; lia|]. split; assumption.
Qed.
(** Media without structure, one of them absorbing. *)
Example flat_history : Forall (flat_medium (bshape sheet)) [Propagate 1 (Some (fun _ => (3 / 2, 1 / 10)%R)); ReadFt; Propagate (-1) None; ReadField].
Proof. repeat constructor. Qed.
