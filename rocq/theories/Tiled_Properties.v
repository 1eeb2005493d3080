(** Beams that repeat themselves across their sections: C193. *)
From Coq Require Import Reals List Arith Bool ZArith Lia Lra.
Require Import Verif.Base Verif.CSum Verif.Field Verif.Fourier_Model Verif.Fourier_Spec Verif.Vec_Model Verif.Cell_Spec.
Require Import Verif.Beam_Model Verif.Beam_Spec Verif.Beam_Proofs Verif.Beam_Properties Verif.Superpose_Spec Verif.Superpose_Proofs Verif.Tiled_Spec Verif.Tiled_Proofs Verif.Cplx.
Import ListNotations.
Local Open Scope R_scope.
Local Open Scope C_scope.

(** When the field and all media repeat themselves across the section, then so does the field after any propagation and reading, and one cell is all that needs to be calculated: as long as the field in that cell is not too weak. *)
Theorem repeated_beam_partial : forall (b : setup) (r : list nat) (k : R) (f : vfield) (l : list action) (s t : section), let b' := repeated_setup r b in
  section_grid (bgrid b) (baxis b) -> section_grid (bgrid b') (baxis b) -> repeats r (bshape b) -> (bcomp b <= 3)%nat -> (0 < k)%R -> bk b = RtoC k -> Forall passes l ->
  (forall i, (i <= length l)%nat -> in_view b (read_ft b (run b s (SetField f :: firstn i l)))) ->
  vagree 3 (bshape b') (read_field b' (run b' t (map (repeated_action (bshape b)) (SetField f :: l)))) (repeated (bshape b) (read_field b (run b s (SetField f :: l)))) /\
  repeated_spectrum r (bshape b) 3 (read_ft b (run b s (SetField f :: l))) (read_ft b' (run b' t (map (repeated_action (bshape b)) (SetField f :: l)))).
Proof.
  intros b r k f l s t b' G G' Rp Cp K BK H V.
  destruct (run_tiled b r G G' Rp Cp k K BK l H (set_field b f) (set_field b' (repeated (bshape b) f)) (set_field_tiled b r G G' Rp f _ (fun c p _ _ => eq_refl)) V) as [T E].
  split; [exact E|exact (read_tiled b r G Rp _ _ T)].
Qed.
Print Assumptions repeated_beam_partial.
(** So for an assigned spectrum. *)
Theorem repeated_spectrum_partial : forall (b : setup) (r : list nat) (k : R) (F F' : vfield) (l : list action) (s t : section), let b' := repeated_setup r b in
  section_grid (bgrid b) (baxis b) -> section_grid (bgrid b') (baxis b) -> repeats r (bshape b) -> (bcomp b <= 3)%nat -> (0 < k)%R -> bk b = RtoC k -> Forall passes l ->
  repeated_spectrum r (bshape b) 3 F F' -> (forall i, (i <= length l)%nat -> in_view b (read_ft b (run b s (SetFt F :: firstn i l)))) ->
  vagree 3 (bshape b') (read_field b' (run b' t (SetFt F' :: map (repeated_action (bshape b)) l))) (repeated (bshape b) (read_field b (run b s (SetFt F :: l)))) /\
  repeated_spectrum r (bshape b) 3 (read_ft b (run b s (SetFt F :: l))) (read_ft b' (run b' t (SetFt F' :: map (repeated_action (bshape b)) l))).
Proof.
  intros b r k F F' l s t b' G G' Rp Cp K BK H E0 V.
  destruct (run_tiled b r G G' Rp Cp k K BK l H (set_ft b F) (set_ft b' F') (conj (project_tiled b r G Rp F F' E0) eq_refl) V) as [T E].
  split; [exact E|exact (read_tiled b r G Rp _ _ T)].
Qed.
Print Assumptions repeated_spectrum_partial.
(** In media without structure the spectrum does so however weak the field, also in absorbing backgrounds. *)
Theorem repeated_beam_spectrum : forall (b : setup) (r : list nat) (f : vfield) (l : list action) (s t : section), let b' := repeated_setup r b in
  section_grid (bgrid b) (baxis b) -> section_grid (bgrid b') (baxis b) -> repeats r (bshape b) -> (bcomp b <= 3)%nat -> Forall (flat_medium (bshape b)) l ->
  repeated_spectrum r (bshape b) 3 (read_ft b (run b s (SetField f :: l))) (read_ft b' (run b' t (map (repeated_action (bshape b)) (SetField f :: l)))).
Proof.
  intros b r f l s t b' G G' Rp Cp H.
  exact (read_tiled b r G Rp _ _ (run_flat_tiled b r G G' Rp Cp l H (set_field b f) (set_field b' (repeated (bshape b) f)) (set_field_tiled b r G G' Rp f _ (fun c p _ _ => eq_refl)))).
Qed.
Print Assumptions repeated_beam_spectrum.
(** A weak field reads as zero in one cell, though not in two. *)
Theorem repeated_beam_refuted : exists (b : setup) (r : list nat) (f : vfield), let b' := repeated_setup r b in
  section_grid (bgrid b) (baxis b) /\ section_grid (bgrid b') (baxis b) /\ repeats r (bshape b) /\ bcomp b = 1%nat /\
  forall s t, ~ agree (bshape b') (read_field b' (run b' t [SetField (repeated (bshape b) f)]) 0%nat) (repeated (bshape b) (read_field b (run b s [SetField f])) 0%nat).
Proof.
  exists faint, [1; 1; 2]%nat, speck. cbv zeta. set (b' := repeated_setup [1; 1; 2]%nat faint).
  assert (section_grid (bgrid b') (baxis faint)) as G' by (repeat split; try (cbn; lia); try (repeat constructor; lia); intros c Hc H1; destruct c as [|[|[|]]]; cbn in *; lia || lra).
  assert (repeats [1; 1; 2]%nat (bshape faint)) as Rp by (split; [reflexivity|repeat constructor]).
  split; [exact faint_grid|]. split; [exact G'|]. split; [exact Rp|]. split; [reflexivity|]. intros s t E.
  pose proof (read_tiled faint [1; 1; 2]%nat faint_grid Rp _ _ (set_field_tiled faint [1; 1; 2]%nat faint_grid G' Rp speck _ (fun c p _ _ => eq_refl))) as [T _]. fold b' in T.
  assert (inside (bshape faint) [0; 0; 0]%nat) as I0 by (repeat constructor; lia). assert (inside (bshape b') [0; 0; 0]%nat) as I1 by (repeat constructor; cbn; lia).
  specialize (T 0%nat [0; 0; 0]%nat ltac:(lia) I0).
  pose proof (faint_ft s speck (/ 100000000) eq_refl eq_refl [0; 0; 0]%nat I0) as F. change (run faint s [SetField speck]) with (set_field faint speck) in F. rewrite F in T.
  pose proof (field_assignment b' t (repeated (bshape faint) speck) G' eq_refl) as A.
  specialize (A ltac:(exists [0; 0; 0]%nat; split; [exact I1|]; change (run b' t [SetField (repeated (bshape faint) speck)]) with (set_field b' (repeated (bshape faint) speck)); change (times [1; 1; 2]%nat [0; 0; 0]%nat) with [0; 0; 0]%nat in T; rewrite T; rewrite <- RtoC_mult, Cmod_R, Rabs_right; cbn; lra) [0; 0; 0]%nat I1).
  specialize (E [0; 0; 0]%nat I1). rewrite A in E. rewrite (faint_lost s) in E. unfold repeated in E. apply (f_equal fst) in E. cbn in E. lra.
Qed.
Print Assumptions repeated_beam_refuted.

(** ** Concrete cases *)
(** repeated_spectrum_partial applies to any number of slices of a grating, and any number of periods. *)
Definition comb (m : nat) : vfield := fun _ q => if (nth 2 q 0%nat mod S m =? 0)%nat then RtoC (INR (S m)) else RtoC 0.
Example grating_periods : forall s n m, let r := [1; 1; S m]%nat in
  section_grid (bgrid (repeated_setup r sheet)) (baxis sheet) /\ repeats r (bshape sheet) /\ Forall passes (there (gratings n)) /\ repeated_spectrum r (bshape sheet) 3 flat (comb m) /\
  forall i, (i <= length (there (gratings n)))%nat -> in_view sheet (read_ft sheet (run sheet s (SetFt flat :: firstn i (there (gratings n))))).
Proof.
  intros s n m r. split; [|split; [|split; [|split]]].
  - split; [reflexivity|]. split; [reflexivity|]. split; [constructor; [cbn; lia|constructor; [cbn; lia|constructor; [cbn; lia|constructor]]]|]. split; [reflexivity|]. split; [cbn; lia|]. intros c Hc H1. destruct c as [|[|[|]]]; cbn in *; lia || lra.
  - split; [reflexivity|]. constructor; [lia|constructor; [lia|constructor; [lia|constructor]]].
  - unfold there. apply Forall_forall. intros a Ha. apply in_map_iff in Ha as (x & <- & _). exact I.
  - split.
    + intros c k Hc Hk. inversion Hk as [|? a ? ? _ Hk1]; subst. inversion Hk1 as [|? a' ? ? _ Hk2]; subst. inversion Hk2 as [|? a'' ? ? _ Hk3]; subst. inversion Hk3; subst. unfold comb, flat, r. cbn [times nth].
      replace ((S m * a'') mod S m)%nat with 0%nat by (rewrite Nat.mul_comm, Nat.mod_mul by lia; reflexivity). cbn [Nat.eqb fold_right]. rewrite Cmult_1_r. do 2 f_equal. lia.
    + intros c k' Hc Hk Off. unfold comb. destruct (Nat.eqb_spec (nth 2 k' 0 mod S m)%nat 0%nat) as [Z|Z]; [exfalso|reflexivity]. unfold r in Hk. cbn [times bshape sheet bgrid rshape] in Hk.
      inversion Hk as [|? a ? ? H1 Hk1]; subst. inversion Hk1 as [|? a' ? ? H2 Hk2]; subst. inversion Hk2 as [|? a'' ? ? H3 Hk3]; subst. inversion Hk3; subst. cbn [nth] in Z.
      apply (Off [a; a'; a'' / S m]%nat).
      * constructor; [lia|]. constructor; [lia|]. constructor; [|constructor]. apply Nat.div_lt_upper_bound; lia.
      * unfold r. cbn [times]. rewrite !Nat.mul_1_l. do 3 f_equal. pose proof (Nat.div_mod a'' (S m) ltac:(lia)). lia.
  - intros i Hi. unfold there in *. rewrite map_length in Hi. rewrite firstn_map. destruct (proj2 (gratings_bright s n) i Hi) as (q & Hq & L). exists 0%nat, q. split; [cbn; lia|]. split; assumption.
Qed.
