(** C144-C146: scattering matrices with their cache, previously calculated values, and conversion to an array. *)
From Coq Require Import Reals List Arith ZArith Bool Lra Lia.
Require Import Verif.Base Verif.Cplx Verif.CSum Verif.Field Verif.Fourier_Model Verif.Vec_Model Verif.Solver_Model Verif.Solver_Spec Verif.Derived_Model Verif.Run_Model.
Require Import Verif.Matrix_Model Verif.Matrix_Spec Verif.Modes_Model Verif.Modes_Spec Verif.Scatter_Model Verif.Scatter_Spec Verif.Scatter_Properties Verif.Stored_Model Verif.Stored_Spec Verif.Stored_Proofs.
Import ListNotations.
Local Open Scope R_scope.
Local Open Scope C_scope.

(** ** C144: the cache of a scattering matrix *)
(** Whatever was done before with the matrix, with the cache switched on and off, every product is exactly the one that a calculation
    without a cache, and with a Solution that was not used before, returns. *)
Theorem cached_products : forall d alpha beta eps mu chi maxiter rtol caching uses vs x, well_laid d -> lossy d alpha beta eps mu -> (0 < rtol)%R ->
  made_of d alpha beta eps mu chi x -> List.Forall (proper_use d) uses -> List.Forall (proper_input d) vs ->
  exists fuel s0 s us s', build (n_elements (optics_of d)) caching NotGiven x = Ok s0 /\ after_uses fuel maxiter rtol d s0 uses = Some s /\
    products fuel maxiter rtol d s vs = Some (Ok us, s') /\ Forall2 (direct fuel maxiter rtol d (made_of d alpha beta eps mu chi)) vs us.
Proof. intros d alpha beta eps mu chi maxiter rtol caching uses vs x Hd Hl Ht. exact (cached_products_proof d alpha beta eps mu chi Hd Hl maxiter rtol Ht caching uses vs x). Qed.
Print Assumptions cached_products.
(** A column that is known is not calculated again: in any medium, after a product with a multiple of a basis vector, and any other use,
    a product with another multiple of it returns without a step of the Solution. *)
Theorem column_calculated_once : forall d maxiter rtol fuel s v u s1 b l s2 w, sm_caching s = true -> along (n_elements (optics_of d)) b v ->
  product_column fuel maxiter rtol d s v = Some (Ok u, s1) -> after_uses fuel maxiter rtol d s1 l = Some s2 -> sm_caching s2 = true ->
  along (n_elements (optics_of d)) b w -> exists u', products 0 maxiter rtol d s2 [w] = Some (Ok [u'], s2).
Proof. exact column_once_proof. Qed.
Print Assumptions column_calculated_once.

(** ** C145: matrix values that have been calculated before *)
(** A scattering matrix that is constructed with an array is that array, without any calculation and whatever the material. *)
Theorem stored_array_partial : forall d maxiter rtol fuel x A, let n := n_elements (optics_of d) in
  exists s a, build n true (GivenTable n n A) x = Ok s /\ as_array fuel maxiter rtol d s = Some (Ok a, s) /\
    forall i j, (i < n)%nat -> (j < n)%nat -> a i j = A i j.
Proof. exact stored_array_proof. Qed.
Print Assumptions stored_array_partial.
(** When that is the array of a scattering matrix of the same material, then the products are those of that matrix. *)
Theorem stored_products_partial : forall d alpha beta eps mu chi maxiter rtol b caching uses vs x y s0 F s A s1, well_laid d -> lossy d alpha beta eps mu -> (0 < rtol)%R ->
  let n := n_elements (optics_of d) in
  made_of d alpha beta eps mu chi x -> made_of d alpha beta eps mu chi y -> build n b NotGiven x = Ok s0 -> List.Forall (proper_use d) uses ->
  after_uses F maxiter rtol d s0 uses = Some s -> as_array F maxiter rtol d s = Some (Ok A, s1) -> List.Forall (proper_input d) vs ->
  exists fuel t us t', build n caching (GivenTable n n A) y = Ok t /\ products fuel maxiter rtol d t vs = Some (Ok us, t') /\
    Forall2 (direct fuel maxiter rtol d (made_of d alpha beta eps mu chi)) vs us.
Proof.
  intros d alpha beta eps mu chi maxiter rtol b caching uses vs x y s0 F s A s1 Hd Hl Ht n.
  exact (restored_products_proof d alpha beta eps mu chi Hd Hl maxiter rtol Ht caching uses vs x y b s0 F s A s1).
Qed.
Print Assumptions stored_products_partial.
(** Without caching the array is ignored: each column is calculated. *)
Theorem stored_ignored_without_caching : forall d maxiter rtol fuel a x s vs, build (n_elements (optics_of d)) false a x = Ok s ->
  option_map fst (products fuel maxiter rtol d s vs) = option_map fst (columns fuel maxiter rtol d x vs).
Proof.
  intros d maxiter rtol fuel a x s vs H. assert (sm_caching s = false /\ sm_solution s = x) as (Hc & <-).
  { destruct a; cbn in H; try discriminate; repeat match goal with H : context [if ?b then _ else _] |- _ => destruct b end; try discriminate; injection H as <-; split; reflexivity. }
  rewrite (uncached_proof d maxiter rtol fuel vs s Hc). destruct (columns fuel maxiter rtol d (sm_solution s) vs) as [[r z]|]; reflexivity.
Qed.
Print Assumptions stored_ignored_without_caching.
(** Arrays of two axes with another shape are rejected. *)
Theorem stored_shape_partial : forall side caching rows cols f x, (rows <> side \/ cols <> side) -> build side caching (GivenTable rows cols f) x = Err ValueError.
Proof.
  intros side caching rows cols f x H. unfold build. destruct (Nat.eqb_spec rows side), (Nat.eqb_spec cols side); try reflexivity. destruct H; contradiction.
Qed.
Print Assumptions stored_shape_partial.
(** A vector of the right length is not rejected: it is used as a matrix with equal rows. *)
Theorem stored_vector_refuted : forall d maxiter rtol fuel x f, let n := n_elements (optics_of d) in
  exists s a, build n true (GivenVector n f) x = Ok s /\ as_array fuel maxiter rtol d s = Some (Ok a, s) /\ forall i j, (i < n)%nat -> (j < n)%nat -> a i j = f j.
Proof. exact stored_vector_proof. Qed.
Print Assumptions stored_vector_refuted.
(** A list, or a function that returns the array, as the documentation allows, is not accepted. *)
Theorem stored_sequence_refuted : forall side caching x, build side caching GivenOther x = Err AttributeError.
Proof. reflexivity. Qed.
Print Assumptions stored_sequence_refuted.

(** ** C146: conversion to an array that is given *)
(** The array that is returned has the columns of the matrix, whatever was done before. *)
Theorem array_columns_direct_partial : forall d alpha beta eps mu chi maxiter rtol caching uses x, well_laid d -> lossy d alpha beta eps mu -> (0 < rtol)%R ->
  made_of d alpha beta eps mu chi x -> List.Forall (proper_use d) uses ->
  exists fuel s0 s a s', build (n_elements (optics_of d)) caching NotGiven x = Ok s0 /\ after_uses fuel maxiter rtol d s0 uses = Some s /\
    as_array fuel maxiter rtol d s = Some (Ok a, s') /\
    forall j, (j < n_elements (optics_of d))%nat -> direct fuel maxiter rtol d (made_of d alpha beta eps mu chi) (basis j) (fun i => a i j).
Proof. intros d alpha beta eps mu chi maxiter rtol caching uses x Hd Hl Ht. exact (array_columns_proof d alpha beta eps mu chi Hd Hl maxiter rtol Ht caching uses x). Qed.
Print Assumptions array_columns_direct_partial.
(** The array that is given is left with the transposed matrix: for any matrix with the values A, r is returned, and a is what is given. *)
Theorem array_out_refuted : forall d maxiter rtol fuel x A, let n := n_elements (optics_of d) in
  exists s a r, build n true (GivenTable n n A) x = Ok s /\ fill_array fuel maxiter rtol d s = Some (Ok (a, r), s) /\
    forall i j, (i < n)%nat -> (j < n)%nat -> r i j = A i j /\ a i j = A j i.
Proof. exact fill_transposed. Qed.
Print Assumptions array_out_refuted.

(** The slab of C127, after a product with circularly polarized light, after switching the cache off and on, and after conversion to an array. *)
Example slab_uses : List.Forall (proper_use slab) [UMultiply [(fun i => match i with 0%nat => RtoC 1 | 1%nat => Ci | _ => RtoC 0 end)]; UCaching false; UCaching true; UArray].
Proof.
  constructor; [|repeat constructor]. cbn [proper_use]. constructor; [|constructor]. split; [|exact slab_audible].
  intros i Hi. destruct i as [|[|]]; [exfalso|exfalso|reflexivity]; revert Hi; unfold n_elements; rewrite slab_modes; cbn; lia.
Qed.
Example slab_inputs : List.Forall (proper_input slab) [basis 2; (fun i => RtoC 3 * basis 2 i)].
Proof.
  assert (H : forall a, (/ 100000000 < Cmod a)%R -> proper_input slab (fun i => a * basis 2 i)).
  { intros a Ha. split.
    - intros i Hi. unfold n_elements in Hi. rewrite slab_modes in Hi. cbn in Hi. unfold basis. destruct (Nat.eqb_spec i 2); [lia|ring].
    - split; unfold significant; rewrite slab_modes; cbn [n_pol optics_of slab Modes_Model.vectorial Nat.mul Nat.add].
      + left. intros i Hi. unfold basis. destruct (Nat.eqb_spec i 2); [lia|ring].
      + right. exists 0%nat. split; [lia|]. unfold basis. cbn [Nat.eqb Nat.add]. rewrite Cmult_1_r. exact Ha. }
  constructor; [|constructor; [|constructor]].
  - replace (basis 2) with (fun i => RtoC 1 * basis 2 i); [apply H; rewrite Cmod_1; lra|]. apply FunctionalExtensionality.functional_extensionality. intros i. ring.
  - apply H. rewrite Cmod_R, Rabs_pos_eq; lra.
Qed.
