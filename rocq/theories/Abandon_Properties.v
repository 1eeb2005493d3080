(** C175: scattering matrices whose calculations are interrupted. *)
From Coq Require Import Reals List Arith ZArith Bool Lra Lia.
Require Import Verif.Base Verif.Cplx Verif.CSum Verif.Field Verif.Fourier_Model Verif.Vec_Model Verif.Solver_Model Verif.Solver_Spec Verif.Derived_Model Verif.Run_Model.
Require Import Verif.Matrix_Model Verif.Matrix_Spec Verif.Modes_Model Verif.Modes_Spec Verif.Scatter_Model Verif.Scatter_Spec Verif.Scatter_Properties Verif.Stored_Model Verif.Stored_Spec Verif.Stored_Properties.
Require Import Verif.Memory_Model Verif.Interrupt_Model Verif.Interrupt_Spec Verif.Abandon_Model Verif.Abandon_Proofs.
Import ListNotations.
Local Open Scope R_scope.
Local Open Scope C_scope.

(** An iteration that is interrupted leaves the Solution as the model of the matrix assumes, whatever the library for the Fourier transforms and the work arrays. *)
Theorem stopped_iteration : forall lib aligned junk u s fresh y, lived lib aligned junk u (start s) [Cut fresh] y -> halted s (solution_of (now y)).
Proof. exact stopped_iteration_proof. Qed.
Print Assumptions stopped_iteration.

(** C175.  Whatever was done before with the matrix of an absorbing material, whichever of it was interrupted, and wherever: every product is exactly the one that a calculation without a cache,
    and with a Solution that was not used before, returns. *)
Theorem stopped_products : forall d alpha beta eps mu chi maxiter rtol caching x s0 l s vs, well_laid d -> lossy d alpha beta eps mu -> (0 < rtol)%R ->
  made_of d alpha beta eps mu chi x -> build (n_elements (optics_of d)) caching NotGiven x = Ok s0 -> endured maxiter rtol d s0 l s -> List.Forall (fun e => proper_use d (used e)) l ->
  List.Forall (proper_input d) vs ->
  exists fuel us s', products fuel maxiter rtol d s vs = Some (Ok us, s') /\ Forall2 (direct fuel maxiter rtol d (made_of d alpha beta eps mu chi)) vs us.
Proof. intros d alpha beta eps mu chi maxiter rtol caching x s0 l s vs Hd Hl Ht. exact (stopped_products_proof d alpha beta eps mu chi Hd Hl maxiter rtol Ht caching x s0 l s vs). Qed.
Print Assumptions stopped_products.
(** So is each column of the array. *)
Theorem stopped_array : forall d alpha beta eps mu chi maxiter rtol caching x s0 l s, well_laid d -> lossy d alpha beta eps mu -> (0 < rtol)%R ->
  made_of d alpha beta eps mu chi x -> build (n_elements (optics_of d)) caching NotGiven x = Ok s0 -> endured maxiter rtol d s0 l s -> List.Forall (fun e => proper_use d (used e)) l ->
  exists fuel a s', as_array fuel maxiter rtol d s = Some (Ok a, s') /\
    forall j, (j < n_elements (optics_of d))%nat -> direct fuel maxiter rtol d (made_of d alpha beta eps mu chi) (basis j) (fun i => a i j).
Proof. intros d alpha beta eps mu chi maxiter rtol caching x s0 l s Hd Hl Ht. exact (stopped_array_proof d alpha beta eps mu chi Hd Hl maxiter rtol Ht caching x s0 l s). Qed.
Print Assumptions stopped_array.

(** C175.  In any material, what is known is kept: after a product with a multiple of a basis vector, and any other uses of which some are interrupted, a product with another multiple of it returns
    without a step of the Solution, and is what it would have been immediately. *)
Theorem stopped_once : forall d maxiter rtol fuel s v u s1 b l s2 w, sm_caching s = true -> along (n_elements (optics_of d)) b v ->
  product_column fuel maxiter rtol d s v = Some (Ok u, s1) -> endured maxiter rtol d s1 l s2 -> sm_caching s2 = true -> along (n_elements (optics_of d)) b w ->
  exists u', products 0 maxiter rtol d s2 [w] = Some (Ok [u'], s2) /\ product_column 0 maxiter rtol d (switch_caching true s1) w = Some (Ok u', switch_caching true s1).
Proof. exact stopped_once_proof. Qed.
Print Assumptions stopped_once.
(** C175.  When a product with several columns, or the conversion to an array, is interrupted after k columns, these are known and not calculated again. *)
Theorem stopped_progress : forall d maxiter rtol s vs k s', products_cut maxiter rtol d s vs k s' -> sm_caching s = true ->
  forall j v b w, (j < k)%nat -> nth_error vs j = Some v -> along (n_elements (optics_of d)) b v -> along (n_elements (optics_of d)) b w ->
  exists u, products 0 maxiter rtol d s' [w] = Some (Ok [u], s').
Proof. exact stopped_progress_proof. Qed.
Print Assumptions stopped_progress.
(** C175.  In any material, a matrix that is constructed with an array remains that array. *)
Theorem stopped_given : forall d maxiter rtol x A l s fuel s0, let n := n_elements (optics_of d) in build n true (GivenTable n n A) x = Ok s0 -> endured maxiter rtol d s0 l s -> sm_caching s = true ->
  exists a, as_array fuel maxiter rtol d s = Some (Ok a, s) /\ forall i j, (i < n)%nat -> (j < n)%nat -> a i j = A i j.
Proof. intros d maxiter rtol x A l s fuel s0 n. exact (stopped_given_proof d maxiter rtol x A l s fuel s0). Qed.
Print Assumptions stopped_given.

(** C175.  Switching the caching is done or not done when it is interrupted. *)
Theorem stopped_switch : forall d maxiter rtol s b s', use_cut maxiter rtol d s (UCaching b) s' ->
  (sm_caching s' = sm_caching s \/ sm_caching s' = b) /\ sm_columns s' = sm_columns s /\ sm_solution s' = sm_solution s.
Proof. exact stopped_switch_proof. Qed.
Print Assumptions stopped_switch.

(** The slab of C127: the conversion to an array is interrupted in the first iteration, after the field was updated and before the norm of the update was stored. *)
Example stopped_case : forall x maxiter rtol, let S := source_of slab (basis 0) in let t := set_E (set_source x S) (fun _ _ => 0) in
  endured maxiter rtol slab {| sm_caching := true; sm_columns := []; sm_solution := x |} [Stopped UArray]
    {| sm_caching := true; sm_columns := []; sm_solution := counted (set_field t (next_field (operators t) (field t))) 1 None |}.
Proof.
  intros x maxiter rtol S t. set (s := {| sm_caching := true; sm_columns := []; sm_solution := x |}). apply (endured_stopped maxiter rtol slab s [] s UArray); [constructor|].
  cbn [use_cut]. exists 0%nat. unfold n_elements. rewrite slab_modes. change (map basis (List.seq 0 _)) with (basis 0 :: map basis [1; 2; 3]%nat). apply cut_first.
  apply (cut_during maxiter rtol slab s (basis 0)). apply (while_iterating maxiter rtol x S true t); [constructor|]. apply (field_only t _ 1); [exact I|reflexivity].
Qed.
Example stopped_uses : List.Forall (fun e => proper_use slab (used e)) [Stopped UArray; Used (UMultiply [basis 2]); Stopped (UCaching false)].
Proof.
  constructor; [exact I|]. constructor; [|repeat constructor]. pose proof slab_inputs as H. inversion H as [|? ? Hb _]; subst. constructor; [exact Hb|constructor].
Qed.
