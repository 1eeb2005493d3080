(** Displacing beams: C186. *)
From Coq Require Import Reals List Arith Bool ZArith Lia Lra.
Require Import Verif.Base Verif.CSum Verif.Field Verif.Fourier_Model Verif.Fourier_Spec Verif.Vec_Model.
Require Import Verif.Beam_Model Verif.Beam_Spec Verif.Beam_Proofs Verif.Displace_Spec Verif.Displace_Proofs Verif.Cplx.
Import ListNotations.
Local Open Scope R_scope.
Local Open Scope C_scope.

(** After any history that starts with an assignment, the field and the spectrum are those of the displaced section, for scalar and vector beams, complex wavenumbers,
    and all distances. Missing: media with weak contrast. *)
Theorem displaced_section_partial : forall (b : setup) (z : list nat) (x : action) (l : list action) (s t : section),
  section_grid (bgrid b) (baxis b) -> inside (bshape b) z -> (exists F, x = SetFt F \/ x = SetField F) -> Forall (clear_cut (bshape b)) l ->
  forall c, agree (bshape b) (read_ft b (run b t (map (displaced_action (bshape b) z) (x :: l))) c) (displaced_ft (bshape b) z (read_ft b (run b s (x :: l)) c)) /\
            agree (bshape b) (read_field b (run b t (map (displaced_action (bshape b) z) (x :: l))) c) (displaced (bshape b) z (read_field b (run b s (x :: l)) c)).
Proof. intros b z x l s t G Z. apply run_displaced; assumption. Qed.
Print Assumptions displaced_section_partial.
(** So are all slices of a beam. *)
Theorem displaced_beam_partial : forall (b : setup) (z : list nat) (F : vfield) (first step : R) (media : list (option sfield)),
  section_grid (bgrid b) (baxis b) -> inside (bshape b) z -> Forall (fun m => match m with Some n => contrasted (bshape b) n | None => True end) media ->
  forall c p, inside (bshape b) p ->
    map (fun f : vfield => f c p) (fst (beam_field b (enter b (set_field b (fun c => displaced (bshape b) z (F c))) first step) step (map (option_map (displaced (bshape b) z)) media))) =
    map (fun f : vfield => displaced (bshape b) z (f c) p) (fst (beam_field b (enter b (set_field b F) first step) step media)).
Proof.
  intros b z F first step media G Z H c p Hp. apply beam_displaced; try assumption. unfold enter.
  apply (act_shifted b z G Z _ _ (Propagate (first - step) None) I). apply set_field_shifted; try assumption. intros i q Hq. reflexivity.
Qed.
Print Assumptions displaced_beam_partial.
(** Contrast is needed: the refractive index at the first point counts for a medium of which the variations are below the tolerance, so that the phase depends on where it is. *)
Theorem displaced_beam_refuted : exists (b : setup) (z : list nat) (F : vfield) (n : sfield) (d : R),
  section_grid (bgrid b) (baxis b) /\ inside (bshape b) z /\ (0 < d)%R /\ forall s t,
  read_ft b (run b t (map (displaced_action (bshape b) z) [SetFt F; Propagate d (Some n)])) 0%nat [0; 0; 0]%nat <>
  displaced_ft (bshape b) z (read_ft b (run b s [SetFt F; Propagate d (Some n)]) 0%nat) [0; 0; 0]%nat.
Proof.
  exists duo, [0; 0; 1]%nat, (fun _ _ => RtoC 1), faint, (100000 * PI)%R. pose proof PI_RGT_0. split; [exact duo_grid|]. split; [repeat constructor|]. split; [lra|]. exact faint_differs.
Qed.
Print Assumptions displaced_beam_refuted.

(** ** Concrete cases *)
Definition glass : sfield := fun p => if idx_eqb p [0; 0; 1]%nat then RtoC (3 / 2) else RtoC 1.
Example glass_contrasted : contrasted (bshape duo) glass /\ ~ (forall p, inside (bshape duo) p -> displaced (bshape duo) [0; 0; 1]%nat glass p = glass p).
Proof.
  split.
  - right. intros p Hp. inversion Hp as [|? a ? p1 A Hp1]; subst. inversion Hp1 as [|? a1 ? p2 A1 Hp2]; subst. inversion Hp2 as [|? a2 ? p3 A2 Hp3]; subst. inversion Hp3; subst.
    assert (a = 0)%nat as -> by lia. assert (a1 = 0)%nat as -> by lia. destruct (Nat.eq_dec a2 0) as [->|N].
    + exists [0; 0; 1]%nat. split; [repeat constructor|]. change (glass [0; 0; 0]%nat) with (RtoC 1). change (glass [0; 0; 1]%nat) with (RtoC (3 / 2)). rewrite <- RtoC_minus, !Cmod_R, !Rabs_pos_eq; lra.
    + assert (a2 = 1)%nat as -> by lia. exists [0; 0; 0]%nat. split; [repeat constructor|]. change (glass [0; 0; 0]%nat) with (RtoC 1). change (glass [0; 0; 1]%nat) with (RtoC (3 / 2)).
      rewrite <- RtoC_minus, !Cmod_R, (Rabs_pos_eq (3 / 2)), Rabs_left; lra.
  - intros H. specialize (H [0; 0; 0]%nat ltac:(repeat constructor)). change (displaced (bshape duo) [0; 0; 1]%nat glass [0; 0; 0]%nat) with (RtoC (3 / 2)) in H. change (glass [0; 0; 0]%nat) with (RtoC 1) in H.
    apply (f_equal fst) in H. cbn in H. lra.
Qed.
Example glass_history : forall f, Forall (clear_cut (bshape duo)) [Propagate 1 (Some glass); ReadField; Propagate (-2) None; SetField f; Propagate (/ 1000000000) (Some glass)].
Proof. intros f. repeat (apply Forall_cons; [first [exact (proj1 glass_contrasted) | exact I]|]). apply Forall_nil. Qed.
