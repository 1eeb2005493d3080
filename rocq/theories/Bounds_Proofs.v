(** Proofs about the bounds of C194, C195 and C196, for fields in space. *)
From Coq Require Import Reals List Arith Bool ZArith Lia Lra Psatz FunctionalExtensionality.
Require Import Verif.Base Verif.CSum Verif.Field Verif.Fourier_Model Verif.Fourier_Spec Verif.Fourier_Proofs Verif.Vec_Model Verif.Vec_Spec Verif.Vec_Proofs Verif.Modes_Model Verif.Modes_Proofs.
Require Import Verif.Solver_Convergence Verif.Magnetic_Norm Verif.Robust_Spec Verif.Robust_Proofs.
Require Import Verif.Beam_Model Verif.Beam_Spec Verif.Beam_Proofs Verif.Beam_Media Verif.Beam_Slices Verif.Beam_More Verif.Beam_Vector Verif.Beam_Power Verif.Nearby_Spec Verif.Nearby_Proofs Verif.Neglect_Spec Verif.Neglect_Proofs Verif.Detour_Spec Verif.Detour_Proofs Verif.Divide_Spec Verif.Divide_Proofs Verif.Cplx.
Import ListNotations.
Local Open Scope R_scope.
Local Open Scope C_scope.

Section Bounds.
  Variables (b : setup) (k : R).
  Hypotheses (G : section_grid (bgrid b) (baxis b)) (K : (0 < k)%R) (BK : bk b = RtoC k) (Comp : bcomp b = 1%nat \/ bcomp b = 3%nat) (Bn : bn b <> 0).
  Notation g := (bgrid b).
  Notation fi := (bfirst b).
  Notation sh := (bshape b).
  Notation sz := (size (bcomp b) sh).
  Notation root := (root b).
  Notation step := (sqrt (INR (bcomp b)) / 100000000)%R.

  Definition start (f : vfield) : vfield := fun c q => if extended b then ft sh (f c) q * Cconj (shift_ft b q) else f c q.
  Lemma run_start s f l : run b s (SetField f :: l) = run b s (SetFt (start f) :: l).
  Proof. unfold run. cbn [fold_left act]. f_equal. unfold set_field, start. destruct (extended b); reflexivity. Qed.
  Lemma start_spectrum f c q : inside sh q -> start f c q = to_spectrum g fi (f c) q.
  Proof. intros Hq. unfold start. destruct (extended b) eqn:E; [apply to_spectrum_ft; assumption|symmetry; apply point_spectrum; assumption]. Qed.
  Lemma spectrum_size f : sz (fun c => to_spectrum g fi (f c)) = (root * sz f)%R.
  Proof. apply (root_size b). unfold vnorm2. rewrite <- rsum_scal. apply rsum_ext. intros c _. apply (spectrum_power b G). Qed.
  Lemma start_root f : sz (start f) = (root * sz f)%R.
  Proof. rewrite <- spectrum_size. apply size_same. intros c q _ Hq. rewrite start_spectrum by exact Hq. reflexivity. Qed.
  (** From spectra to fields. *)
  Lemma fields_bound s t E M f : (gap b (read_ft b s) (read_ft b t) <= E * sz (start f) + INR M * Nearby_Proofs.floor b)%R -> (gap b (read_field b s) (read_field b t) <= E * sz f + INR (M + 1) * step)%R.
  Proof.
    intros H. pose proof (root_pos b G) as RP. apply Rmult_le_reg_l with (1 := RP). eapply Rle_trans; [apply (field_gap b G)|]. rewrite start_root, (floor_root b) in H. rewrite (floor_root b), plus_INR. change (INR 1) with 1%R. set (x := step) in *. lra.
  Qed.
  Lemma space_gap s A : (root * gap b (read_field b s) (fun c => to_space g fi (A c)) <= gap b (read_ft b s) A + Nearby_Proofs.floor b)%R.
  Proof.
    set (t := {| field_hat := A; pending := 0 |}). assert (read_ft b t = A) as RT.
    { unfold read_ft, settle, t. cbn [pending]. unfold tiny, Rleb. rewrite Rabs_R0. destruct (Rle_dec 0 (/ 100000000)) as [|n]; [reflexivity|exfalso; apply n; lra]. }
    pose proof (floor_pos b) as FP. pose proof (root_pos b G) as RP.
    assert (forall F, (root * gap b (spatial b F) (fun c => to_space g fi (A c)))%R = gap b F A) as Q.
    { intros F. unfold gap. rewrite (spatial_size b G (fun c p => F c p - A c p)). f_equal. apply size_same. intros c p _ Hp. rewrite <- spatial_minus. f_equal. f_equal. f_equal.
      unfold spatial. destruct (extended b) eqn:E; [symmetry; apply to_space_ift; assumption|apply point_space; assumption]. }
    destruct (andb (extended b) (negligible b (read_ft b s))) eqn:N.
    - assert (gap b (read_field b s) (fun c => to_space g fi (A c)) = gap b (spatial b (fun _ _ => RtoC 0)) (fun c => to_space g fi (A c))) as ->.
      { apply size_same. intros c p _ Hp. rewrite read_spatial, N. f_equal. f_equal. unfold spatial. destruct (extended b); [|reflexivity]. replace (fun q => 0 * shift_ft b q) with (fun q => 0 * (0 * shift_ft b q)) by (apply functional_extensionality; intros; ring). rewrite ift_scal. ring. }
      rewrite Q. pose proof (gap_triangle b (fun _ _ => RtoC 0) (read_ft b s) A) as Tr. apply andb_prop in N as [_ N]. apply negligible_dark in N. pose proof (dark_size b _ N) as Dk.
      assert (gap b (fun _ _ => RtoC 0) (read_ft b s) = sz (read_ft b s)) as E by (rewrite gap_sym; apply size_same; intros; f_equal; ring). lra.
    - assert (gap b (read_field b s) (fun c => to_space g fi (A c)) = gap b (spatial b (read_ft b s)) (fun c => to_space g fi (A c))) as ->.
      { apply size_same. intros c p _ Hp. rewrite read_spatial, N. reflexivity. }
      rewrite Q. lra.
  Qed.
  Lemma neglect_space f l s : Forall (passive_slice b) l ->
    (gap b (read_field b (run b s (SetField f :: there l))) (fun c => to_space g fi (exact_slices b k l (exact_start b k (fun c => to_spectrum g fi (f c))) c)) <= (all_neglected b k l + k * / 100000000) * sz f + INR (slices (there l) + 1) * step)%R.
  Proof.
    intros A. rewrite run_start. pose proof (root_pos b G) as RP. apply Rmult_le_reg_l with (1 := RP). eapply Rle_trans; [apply space_gap|].
    pose proof (beam_error b k G K BK Comp Bn (start f) l s A) as E. rewrite start_root in E.
    pose proof (gap_triangle b (read_ft b (run b s (SetFt (start f) :: there l))) (exact_slices b k l (exact_start b k (start f))) (exact_slices b k l (exact_start b k (fun c => to_spectrum g fi (f c))))) as Tr.
    pose proof (exact_slices_near b k G K BK Comp l A (exact_start b k (start f)) (exact_start b k (fun c => to_spectrum g fi (f c)))) as N.
    assert (gap b (exact_start b k (start f)) (exact_start b k (fun c => to_spectrum g fi (f c))) = 0)%R as Z.
    { unfold gap. rewrite (size_same _ _ _ (fun _ _ => RtoC 0)); [apply zero_size|]. intros c q Hc Hq. f_equal. rewrite <- !(start_exact b k G K BK Comp) by exact Hc.
      rewrite (project_ext b (start f) (fun c => to_spectrum g fi (f c))) by ((destruct Comp; lia) || (intros; apply start_spectrum, Hq)). ring. }
    rewrite (floor_root b) in *. rewrite plus_INR. change (INR 1) with 1%R. set (x := step) in *. lra.
  Qed.
  Lemma detour_space f l l' e s s' : Forall (passive_slice b) l -> Forall (passive_slice b) l' -> similar b k e l l' ->
    (gap b (read_field b (run b s (SetField f :: there l))) (read_field b (run b s' (SetField f :: there l'))) <= (e + all_neglected b k l + all_neglected b k l' + 2 * (k * / 100000000)) * sz f + INR (slices (there l) + slices (there l') + 1) * step)%R.
  Proof.
    intros A A' S. rewrite !run_start. apply fields_bound. eapply Rle_trans; [exact (beam_detour b k G K BK Comp Bn (start f) l l' e s s' A A' S)|]. unfold slack, Nearby_Proofs.floor. rewrite plus_INR. lra.
  Qed.
  Lemma divided_space N f l s s' : (0 <= N)%R -> Forall (proper_layer b N) l ->
    (gap b (read_field b (run b s (SetField f :: there (coarse l)))) (read_field b (run b s' (SetField f :: there (fine l)))) <=
     (k * k * (N * (1 + N)) * squares l + all_neglected b k (coarse l) + all_neglected b k (fine l) + 2 * (k * / 100000000)) * sz f + INR (slices (there (coarse l)) + slices (there (fine l)) + 1) * step)%R.
  Proof.
    intros N0 H. rewrite !run_start. apply fields_bound. eapply Rle_trans; [exact (beam_divided b k G K BK Comp Bn N (start f) l s s' N0 H)|]. unfold slack, Nearby_Proofs.floor. rewrite plus_INR. lra.
  Qed.
End Bounds.
