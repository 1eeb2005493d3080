(** Theorems about the arrays in memory of a Solution (C50, C100).  The library for the Fourier transforms, which arrays it can work on
    without a copy, and what it leaves in those that it may destroy are arbitrary. *)
From Coq Require Import Reals Lra Lia List Arith ZArith Bool.
Require Import Verif.Base Verif.Cplx Verif.CSum Verif.Field Verif.Vec_Model Verif.Solver_Model Verif.Derived_Model Verif.Run_Model.
Require Import Verif.Memory_Model Verif.Memory_Spec Verif.Memory_Sessions.
Import ListNotations.
Local Open Scope R_scope.
Local Open Scope C_scope.

(** ** C100: work arrays *)
(** Whatever a user does with a Solution, including reading properties and changing the arrays that these return, it is the Solution
    that the operations without shared arrays would have given. *)
Theorem work_arrays_invisible : forall lib aligned junk u s l,
  solution_of (now (session_after lib aligned junk u (start s) l)) = history u (operations l) s.
Proof. exact me_refines. Qed.
Print Assumptions work_arrays_invisible.

(** A property that is read in any such history has the value that it has without shared arrays; or the same exception. *)
Theorem read_value : forall lib aligned junk u s l g, let x := session_after lib aligned junk u (start s) l in
  match value u g (history u (operations l) s) with
  | Ok v => array (session_after lib aligned junk u (start s) (l ++ [Read g])) (obtained x) = Some v
  | Err e => snd (read_m lib aligned junk u g (now x)) = Err e /\ got (session_after lib aligned junk u (start s) (l ++ [Read g])) = got x
  end.
Proof. exact me_reads. Qed.
Print Assumptions read_value.

(** ** C50: arrays that are returned do not change *)
(** All properties without pyfftw, and all but D and the divS of scalar problems with pyfftw: what the user obtained stays as it was,
    whatever is done later to the Solution and to other arrays. *)
Theorem returned_arrays_kept_partial : forall lib aligned junk u s l g v later, let x := session_after lib aligned junk u (start s) l in
  value u g (history u (operations l) s) = Ok v -> own_array lib (history u (operations l) s) g = true ->
  Forall (fun d => ~ writes_to (obtained x) d) later ->
  array (session_after lib aligned junk u (start s) (l ++ Read g :: later)) (obtained x) = Some v.
Proof. exact me_snapshot. Qed.
Print Assumptions returned_arrays_kept_partial.

Theorem returned_arrays_kept_numpy : forall aligned junk u s l g v later, let x := session_after Numpy aligned junk u (start s) l in
  value u g (history u (operations l) s) = Ok v -> Forall (fun d => ~ writes_to (obtained x) d) later ->
  array (session_after Numpy aligned junk u (start s) (l ++ Read g :: later)) (obtained x) = Some v.
Proof. intros aligned junk u s l g v later x H. exact (me_snapshot Numpy aligned junk u s l g v later H eq_refl). Qed.
Print Assumptions returned_arrays_kept_numpy.

Theorem returned_arrays_kept_torch : forall aligned junk u s l g v later, let x := session_after Torch aligned junk u (start s) l in
  value u g (history u (operations l) s) = Ok v -> Forall (fun d => ~ writes_to (obtained x) d) later ->
  array (session_after Torch aligned junk u (start s) (l ++ Read g :: later)) (obtained x) = Some v.
Proof. intros aligned junk u s l g v later x H. exact (me_snapshot Torch aligned junk u s l g v later H eq_refl). Qed.
Print Assumptions returned_arrays_kept_torch.

(** With pyfftw all arrays that D returns are the same one: an earlier one takes the value of the later one. *)
Theorem displacement_shared_refuted : forall aligned junk u s l l2, let x := session_after Pyfftw aligned junk u (start s) l in
  let later := history u (operations (l ++ l2)) s in
  own_array Pyfftw (history u (operations l) s) RD = false -> own_array Pyfftw later RD = false ->
  array (session_after Pyfftw aligned junk u (start s) ((l ++ Read RD :: l2) ++ [Read RD])) (obtained x)
  = Some (displacement_field u (operators later) (wavenumber later) (field later)).
Proof.
  intros aligned junk u s l l2 x later H1 H2.
  exact (me_aliased Pyfftw aligned junk u s l RD l2 RD _ _ eq_refl H1 eq_refl H2).
Qed.
Print Assumptions displacement_shared_refuted.

(** For example when the source is removed between the two. *)
Definition demo_memory : solution := construct {| rshape := [2%nat]; rstep := [1%R] |} true false 1 (RtoC 0 + Ci) 1
  (TScalar (fun _ => 1)) (TScalar (fun _ => 0)) (TScalar (fun _ => 0)) (TScalar (fun _ => 1)) (fun _ _ => 1) None (fun _ _ => 0).
Definition demo_si : si := {| c_light := 2; mu_0 := / 2; epsilon_0 := / 2 |}.
Theorem displacement_kept_refuted : forall aligned junk, exists v,
  array (session_after Pyfftw aligned junk demo_si (start demo_memory) [Read RD]) 0 = Some v /\
  array (session_after Pyfftw aligned junk demo_si (start demo_memory) [Read RD; Do (OSetSource (fun _ _ => RtoC 0)); Read RD]) 0 <> Some v.
Proof.
  intros aligned junk. eexists. split.
  - exact (me_reads Pyfftw aligned junk demo_si demo_memory [] RD).
  - pose proof (me_aliased Pyfftw aligned junk demo_si demo_memory [] RD [Do (OSetSource (fun _ _ => RtoC 0))] RD _ _ eq_refl eq_refl eq_refl eq_refl) as H.
    change (obtained (session_after Pyfftw aligned junk demo_si (start demo_memory) [])) with 0%nat in H. cbn [app] in H. rewrite H.
    intros E. injection E as E. apply (f_equal (fun f => f 0%nat [0%nat])) in E. symmetry in E. revert E.
    apply (me_d_changes demo_si demo_memory 0%nat [0%nat]); cbn; try lra.
    intros E. unfold Cdiv, Cmult, Cinv, im in E. cbn in E. injection E as E1 E2. field_simplify in E2. lra.
Qed.
Print Assumptions displacement_kept_refuted.

(** A history that meets the hypotheses: an array of E is read, changed by the user, and E is assigned and iterated on. *)
Example kept_case : forall aligned junk,
  let l := [Do (OSetE (fun _ _ => 1)); Read RE; Write 0 (fun _ _ => RtoC 0)] in
  let later := [Write 0 (fun _ _ => 2); Do (ONext true); Read RD; Write 2 (fun _ _ => 5); Do (OSetE (fun _ _ => 3)); Read RE] in
  let x := session_after Pyfftw aligned junk demo_si (start demo_memory) (l ++ Read RE :: later) in
  array x 1 = Some (fun _ _ => RtoC 1) /\ get_E (solution_of (now x)) = (fun _ _ => RtoC 3).
Proof.
  intros aligned junk l later x.
  assert (X : forall c : C, electric_field 1 (fun (_ : nat) (_ : list nat) => c * RtoC (1 * 1)) = (fun _ _ => c)).
  { intros c. unfold electric_field. apply FunctionalExtensionality.functional_extensionality. intros k.
    apply FunctionalExtensionality.functional_extensionality. intros p. rewrite Rmult_1_r. unfold Cdiv. field.
    intros H. injection H as H. lra. }
  split.
  - pose proof (me_snapshot Pyfftw aligned junk demo_si demo_memory l RE _ later eq_refl eq_refl) as H.
    assert (O : obtained (session_after Pyfftw aligned junk demo_si (start demo_memory) l) = 1%nat) by reflexivity.
    unfold x. rewrite O in H. rewrite H; [|repeat constructor; cbn; lia]. f_equal. exact (X 1).
  - unfold x. rewrite me_refines. exact (X 3).
Qed.
