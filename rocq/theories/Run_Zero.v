(** Proofs about problems without a source, and about the first iteration. *)
From Coq Require Import Reals Lra Lia List Arith ZArith Bool.
Require Import Verif.Base Verif.Cplx Verif.CSum Verif.Field Verif.Fourier_Model Verif.Fourier_Spec Verif.Fourier_Proofs.
Require Import Verif.Vec_Model Verif.Vec_Spec Verif.Vec_Proofs Verif.Solver_Model Verif.Solver_Spec Verif.Solver_Proofs Verif.Solver_Convergence Verif.Solver_Choice.
Require Import Verif.Derived_Model Verif.Derived_Spec Verif.Run_Model Verif.Run_Spec Verif.Run_Proofs Verif.Run_Solve.
Import ListNotations.
Local Open Scope R_scope.
Local Open Scope C_scope.

Definition none : vfield := fun _ _ => 0.

Lemma vft_none s c k : vft s none c k = 0.
Proof. unfold vft, ft, none. rewrite (sum_over_ext _ _ (fun _ => 0)); [apply sum_over_zero|]. intros; ring. Qed.
Lemma convolve_none s (op : vfield -> vfield) c p : (forall F : vfield, (forall c k, F c k = 0) -> forall c k, op F c k = 0) -> convolve s op none c p = 0.
Proof.
  intros H. unfold convolve, vift. rewrite <- (ift_zero s p). apply ift_ext. intros k _. apply H. intros. apply vft_none.
Qed.
Lemma curl_none g n c p : curl g n none c p = 0.
Proof.
  apply convolve_none. intros F HF d k. unfold curl_ft. repeat (rewrite ?HF; match goal with |- context [if ?b then _ else _] => destruct b end); rewrite ?HF; ring.
Qed.
Lemma tapply_none t c p : tapply t none c p = 0.
Proof. destruct t; cbn [tapply]; unfold none; [ring|]. rewrite (csum_ext _ _ (fun _ => 0)); [apply csum_zero|intros; ring]. Qed.
Lemma none_is (F : vfield) : (forall c p, F c p = 0) -> F = none.
Proof. intros H. apply vfield_ext. exact H. Qed.
Lemma chi_none o : chi_op o none = none.
Proof.
  apply none_is. intros c p. unfold chi_op. destruct (o_magnetic o); [|apply tapply_none].
  rewrite (none_is (curl (o_grid o) (vector_length o) none)) by apply curl_none.
  rewrite (none_is (fun c p => tapply (o_chiEH o) none c p + tapply (o_chiHH o) none c p)) by (intros; rewrite !tapply_none; ring).
  rewrite curl_none, !tapply_none. ring.
Qed.
Lemma green_none o : green_op o none = none.
Proof.
  apply none_is. intros c p. unfold green_op. apply convolve_none. intros F HF d k. unfold g_ft_op.
  assert (longitudinal_ft (o_grid o) F d k = 0) as ->.
  { unfold longitudinal_ft. rewrite (csum_ext _ _ (fun _ => 0)); [rewrite csum_zero|intros; rewrite HF; ring].
    destruct (Nat.ltb d (rndim (o_grid o))); [destruct (is_origin k); rewrite ?HF; unfold Cdiv|]; ring. }
  rewrite HF. destruct (o_vectorial o); ring.
Qed.
Lemma update_none o : (forall c p, o_source o c p = 0) -> update o none = none.
Proof.
  intros H. unfold update. rewrite chi_none. rewrite (none_is (fun c p => none c p + o_source o c p)) by (intros; rewrite H; unfold none; ring).
  rewrite green_none. rewrite (none_is (fun c p => none c p - none c p)) by (intros; unfold none; ring). apply chi_none.
Qed.

(** Without source and without field the first iteration changes nothing, and ends the default solve. *)
Definition at_rest (s : solution) : Prop := (forall c p, field s c p = 0) /\ (forall c p, o_source (operators s) c p = 0).
Lemma rest_next s fresh : at_rest s -> prev_norm s = Inf ->
  exists s', next fresh s = (s', None) /\ at_rest s' /\ prev_norm s' = Fin 0 /\ residue_cache s' = None /\ iteration s' = ((if fresh then 0 else iteration s) + 1)%Z
    /\ field s' = none /\ operators s' = operators s.
Proof.
  intros (H1 & H2) Hp. eexists. split; [apply (next_accept s fresh); left; exact Hp|].
  assert (field s = none) as Ef by (apply none_is; exact H1).
  assert (update (operators s) (field s) = none) as Eu by (rewrite Ef; apply update_none; exact H2).
  cbn [field operators prev_norm residue_cache iteration set_prev_norm set_field set_residue set_iteration]. rewrite Eu, Ef.
  assert (norm (operators s) none = 0%R) as En by apply norm_zero.
  repeat split; try assumption.
  - intros c p. cbn. unfold none. ring.
  - rewrite En. reflexivity.
  - apply none_is. intros c p. unfold none. ring.
Qed.
Lemma rest_solve {W} s (cb : callback_arg W) (rtol : R) maxiter (w : W) fuel : at_rest s -> prev_norm s = Inf -> (0 <= rtol)%R ->
  (match cb with Given _ => False | _ => True end) ->
  exists s', solve_method (Datatypes.S fuel) s cb rtol maxiter w = Some (Returned w s') /\
    iteration s' = 1%Z /\ (forall c p, get_E s' c p = 0) /\ snd (read_residue s') = Ok (Fin 0) /\ prev_norm s' = Fin 0.
Proof.
  intros Hs Hp Hr Hcb. destruct (rest_next s true Hs Hp) as (s1 & E1 & R1 & P1 & C1 & I1 & F1 & O1).
  assert (snd (read_residue s1) = Ok (Fin 0) /\ fst (read_residue s1) = set_residue s1 (Some (Fin 0))) as (Q1 & Q2).
  { unfold read_residue. rewrite C1. unfold calculate_residue. rewrite P1. destruct (Rlt_dec 0 0); [lra|]. split; reflexivity. }
  assert (forall m r, (0 <= r)%R -> exists s', limits m r w s1 = (w, s', Ok false) /\ (s' = s1 \/ s' = set_residue s1 (Some (Fin 0)))) as HL.
  { intros m r Hr'. unfold limits. destruct (match m with None => true | Some m => (iteration s1 <? m)%Z end); [|exists s1; auto].
    destruct (read_residue s1) as [s2 r2] eqn:E2. cbn in Q1, Q2. subst. exists (set_residue s1 (Some (Fin 0))). split; [|auto].
    destruct (Rlt_dec r 0); [lra|reflexivity]. }
  assert (exists s', chosen cb rtol maxiter w s1 = (w, s', Ok false) /\ (s' = s1 \/ s' = set_residue s1 (Some (Fin 0)))) as (s2 & E2 & H2).
  { destruct cb; cbn [chosen]; [apply HL; lra|apply HL; exact Hr|contradiction]. }
  exists s2. unfold solve_method. cbn [loop]. rewrite E1, E2. split; [reflexivity|].
  assert (forall c p, get_E s1 c p = 0) as HE by (intros c p; unfold get_E, electric_field; rewrite F1; unfold none, Cdiv; ring).
  destruct H2 as [-> | ->].
  - rewrite I1, Q1. repeat split; try assumption.
  - cbn [iteration set_residue]. rewrite I1. repeat split; try assumption.
Qed.
(** Iterating any further raises an exception. *)
Lemma rest_raises s fresh : prev_norm s = Fin 0 -> snd (next fresh s) = Some ZeroDivisionError /\ get_E (fst (next fresh s)) = get_E s.
Proof. intros H. rewrite (next_raise s fresh H). split; reflexivity. Qed.

(** ** The first iteration of a new solution *)
Lemma first_residue s fresh s1 : wavenumber s <> 0%R -> (forall c p, field s c p = 0) -> prev_norm s = Inf ->
  norm (operators s) (update (operators s) (field s)) <> 0%R -> next fresh s = (s1, None) -> snd (read_residue s1) = Ok (Fin 1).
Proof.
  intros Hk Hf Hp Hn E. rewrite (next_accept s fresh) in E by (left; exact Hp). injection E as <-.
  set (d := update (operators s) (field s)) in *. pose proof (norm_nonneg (operators s) d) as H0.
  unfold read_residue. cbn [residue_cache set_prev_norm set_field set_residue]. unfold calculate_residue.
  cbn [prev_norm operators field set_prev_norm set_field set_residue set_iteration].
  assert (norm (operators s) (fun c p => field s c p + d c p) = norm (operators s) d) as ->.
  { apply norm_ext. intros c p _ _. rewrite Hf. ring. }
  destruct (Rlt_dec 0 (norm (operators s) d)); [|lra]. destruct (Req_EM_T (norm (operators s) d) 0); [contradiction|]. cbn. do 2 f_equal. field. assumption.
Qed.
(** Leaving out the callback, one iteration is not enough whatever maxiter and rtol are. *)
Lemma missing_ignores {W} s (w : W) rtol maxiter : wavenumber s <> 0%R -> (forall c p, field s c p = 0) -> prev_norm s = Inf ->
  norm (operators s) (update (operators s) (field s)) <> 0%R -> solve_method 1 s Missing rtol maxiter w = None.
Proof.
  intros Hk Hf Hp Hn. unfold solve_method. cbn [loop chosen].
  pose proof (next_accept s true (or_introl Hp)) as E. rewrite E.
  set (s1 := set_prev_norm _ _) in *. pose proof (first_residue s true s1 Hk Hf Hp Hn E) as Q.
  unfold default_callback, limits.
  assert (iteration s1 = 1%Z) as -> by reflexivity. cbn [Z.ltb Z.compare Pos.compare Pos.compare_cont].
  destruct (read_residue s1) as [s2 r2]. cbn in Q. subst r2. destruct (Rlt_dec (/ 10000) 1) as [|nlt]; [reflexivity|]. exfalso. apply nlt. lra.
Qed.
