(** The scattering matrix of a lossy object: C127, C128. *)
From Coq Require Import Reals Lra Lia List Arith ZArith Bool.
Require Import Verif.Base Verif.Cplx Verif.CSum Verif.Field Verif.Fourier_Model Verif.Fourier_Spec Verif.Vec_Model Verif.Vec_Spec.
Require Import Verif.Choice_Model Verif.Choice_Construct Verif.Choice_Gain.
Require Import Verif.Solver_Model Verif.Solver_Spec Verif.Solver_Choice Verif.Derived_Model Verif.Run_Model.
Require Import Verif.Matrix_Model Verif.Modes_Model Verif.Modes_Spec Verif.Scatter_Model Verif.Scatter_Spec Verif.Scatter_Proofs.
Import ListNotations.
Local Open Scope R_scope.
Local Open Scope C_scope.

(** C127: for any material, the product with a vector depends on the material only, not on the fields, sources, or counters that
    earlier calculations left in the Solution. *)
Theorem column_history_free : forall fuel maxiter rtol d x y (v : vec), same_material x y -> (exists i, (i < n_elements (optics_of d))%nat /\ v i <> RtoC 0) ->
  column fuel maxiter rtol d x v = column fuel maxiter rtol d y v.
Proof. exact column_same. Qed.
Print Assumptions column_history_free.

(** C127: in a lossy medium, any number of products in any order returns, without exception, and each is exactly what it would have
    been with a fresh Solution of that material (or any other with the same material). *)
Theorem columns_independent : forall d alpha beta eps mu chi maxiter rtol (vs : list vec) x, well_laid d -> lossy d alpha beta eps mu -> (0 < rtol)%R ->
  made_of d alpha beta eps mu chi x ->
  exists fuel us x', columns fuel maxiter rtol d x vs = Some (Ok us, x') /\ made_of d alpha beta eps mu chi x' /\
    Forall2 (fun v u => forall y, made_of d alpha beta eps mu chi y -> exists y', column fuel maxiter rtol d y v = Some (Ok u, y')) vs us.
Proof. intros d alpha beta eps mu chi maxiter rtol vs x Hd Hl Ht Hx. exact (columns_exist d alpha beta eps mu chi Hd Hl maxiter rtol vs Ht x Hx). Qed.
Print Assumptions columns_independent.

(** C127, C128: the constants that the constructor chooses meet the conditions of these theorems, for every isotropic or anisotropic
    permittivity with loss, whatever the optimisation settled on. *)
Theorem constructed_lossy : forall tiny d epsilon m settled kappa S loss x, (0 < tiny)%R -> (2 * tiny <= 1)%R -> (0 < m)%R -> (800 * sqrt tiny * (m * m) < 1)%R ->
  fits (is_vectorial d) epsilon -> (0 < loss)%R -> absorbs (components d) (size_x d :: shape_of (optics_of d)) epsilon loss ->
  Run_Model.wavenumber x = k_vacuum d ->
  operators x = Choice_Model.construct tiny (device_grid d) (k_vacuum d) (is_vectorial d) epsilon tzero tzero (tuniform (RtoC m)) settled kappa S ->
  exists alpha, lossy d alpha (/ m) epsilon (tuniform (RtoC m)) /\ made_of d alpha (/ m) epsilon (tuniform (RtoC m)) (bound_chi x) x.
Proof.
  intros tiny d epsilon m settled kappa S loss x He H1 Hm Hq Hf Hl Ha Hw Ho.
  destruct (construct_alpha tiny (device_grid d) (k_vacuum d) (is_vectorial d) epsilon m settled kappa S He H1 Hf (absorbs_weaken _ _ _ _ 0 (Rlt_le _ _ Hl) Ha) Hm Hq) as (alpha & rho & Eo & Pa & Hr & Hdv).
  exists alpha. split.
  - refine (conj Hf (conj I (conj Pa (conj (Rinv_0_lt_compat m Hm) _)))). exists loss, rho. auto.
  - refine (conj Hw (conj eq_refl _)). exists S. rewrite Ho. exact Eo.
Qed.
Print Assumptions constructed_lossy.

(** C128: there is a matrix.  The exact response to a vector is the sum of the exact responses to the basis vectors, with the elements
    of the vector as coefficients. *)
Theorem scattering_linear : forall d alpha beta eps mu (v : vec) (E : vfield) (R : nat -> vfield) i, well_laid d -> lossy d alpha beta eps mu ->
  audible d v -> exact_field d beta eps v E -> (forall j, (j < n_elements (optics_of d))%nat -> exact_field d beta eps (basis j) (R j)) ->
  (i < n_elements (optics_of d))%nat ->
  exact_output d v E i = csum (n_elements (optics_of d)) (fun j => v j * exact_output d (basis j) (R j) i).
Proof. intros d alpha beta eps mu v E R i Hd Hl. exact (exact_linear d alpha beta eps mu Hd Hl v E R i). Qed.
Print Assumptions scattering_linear.

(** C128: what is calculated differs from it by no more than a constant times the tolerance and the size of the calculated field; the
    constant depends neither on the vector nor on the tolerance. *)
Theorem column_accurate : forall d alpha beta eps mu chi, well_laid d -> lossy d alpha beta eps mu ->
  exists K, (0 <= K)%R /\ forall fuel rtol x v u x' E i, made_of d alpha beta eps mu chi x -> (0 < rtol)%R ->
    column fuel None rtol d x v = Some (Ok u, x') -> exact_field d beta eps v E -> (i < n_elements (optics_of d))%nat ->
    (Cmod (u i - exact_output d v E i)%C <= K * rtol * strength d (get_E x'))%R.
Proof. intros d alpha beta eps mu chi Hd Hl. exact (column_error d alpha beta eps mu chi Hd Hl). Qed.
Print Assumptions column_accurate.

(** C128: so multiplying a vector in one calculation and combining the calculated columns of the matrix agree within the tolerance,
    whatever was calculated before each of them. *)
Theorem product_from_columns : forall d alpha beta eps mu chi, well_laid d -> lossy d alpha beta eps mu ->
  exists K, (0 <= K)%R /\ forall fuel rtol (x : solution) v u x' (y y' : nat -> solution) (w : nat -> vec) i,
    (0 < rtol)%R -> audible d v -> made_of d alpha beta eps mu chi x -> column fuel None rtol d x v = Some (Ok u, x') ->
    (forall j, (j < n_elements (optics_of d))%nat -> made_of d alpha beta eps mu chi (y j) /\ column fuel None rtol d (y j) (basis j) = Some (Ok (w j), y' j)) ->
    (i < n_elements (optics_of d))%nat ->
    (Cmod (u i - csum (n_elements (optics_of d)) (fun j => v j * w j i))%C <=
     K * rtol * (strength d (get_E x') + rsum (n_elements (optics_of d)) (fun j => Cmod (v j) * strength d (get_E (y' j)))))%R.
Proof. intros d alpha beta eps mu chi Hd Hl. exact (product_error d alpha beta eps mu chi Hd Hl). Qed.
Print Assumptions product_from_columns.

(** C128: the exact field exists, so that the theorems above are about something. *)
Theorem scattering_exists : forall d alpha beta eps mu v, well_laid d -> lossy d alpha beta eps mu -> exists E, exact_field d beta eps v E.
Proof. intros d alpha beta eps mu v Hd Hl. exact (exact_exists d alpha beta eps mu Hd Hl v). Qed.
Print Assumptions scattering_exists.

(** A plane slab in air, in one dimension, with two polarizations: four elements. *)
Definition slab : device :=
  {| optics_of := {| transverse := {| rshape := []; rstep := [] |}; tfirst := []; xpos := fun x => INR x; Modes_Model.wavenumber := 1; tolerance := 0;
       front_detector := 2; back_detector := 6; Modes_Model.vectorial := true |};
     size_x := 9; step_x := 1; front_source := 1; back_source := 7 |}.
Definition slab_eps : tensor := TScalar (fun p => match p with [4%nat] => (2, 1)%R | _ => (1, 1)%R end).
Lemma slab_modes : n_modes (optics_of slab) = 1%nat. Proof. reflexivity. Qed.
Lemma slab_cosine j : cosine (optics_of slab) j = 1%R.
Proof.
  unfold cosine. cbn [rsum]. unfold direction_t. cbn. match goal with |- sqrt ?x = _ => replace x with 1%R end; [apply sqrt_1|].
  rewrite Rmax_left; lra.
Qed.
Example slab_well_laid : well_laid slab.
Proof.
  refine (conj _ (conj _ (conj _ (conj _ (conj _ _))))).
  - refine (conj (conj eq_refl (conj _ _)) (conj _ _)); cbn; try lra; try lia; repeat constructor; try lia; lra.
  - refine (conj eq_refl (conj _ (conj _ (conj _ (conj _ _))))); cbn; try lra; try lia; constructor.
  - cbn. lra.
  - cbn. lia.
  - cbn. lia.
  - intros j _. rewrite slab_cosine. cbn. lra.
Qed.
Example slab_lossy : lossy slab (1, 3)%R 1 slab_eps (tuniform 1).
Proof.
  refine (conj I (conj I (conj _ (conj _ _)))); [cbn; lra|lra|]. exists 1%R, (1 / 2)%R. refine (conj _ (conj _ (conj _ _))); [lra|lra| |].
  - apply absorbs_scalar. intros p _. destruct p as [|[|[|[|[|[|]]]]] [|]]; cbn; lra.
  - intros p u Hp. cbn [tapply slab_eps]. cbn [components is_vectorial optics_of slab Modes_Model.vectorial rsum fst snd].
    set (e := match p with [4%nat] => (2, 1)%R | _ => (1, 1)%R end : C).
    assert (forall z : C, (Cmod (e * z / RtoC 1 - RtoC 1 * z)%C * Cmod (e * z / RtoC 1 - RtoC 1 * z)%C <= 2 * (Cmod z * Cmod z))%R) as H.
    { intros z. replace (e * z / RtoC 1 - RtoC 1 * z)%C with ((e - 1) * z)%C by (field; intros Q; apply RtoC_inj in Q; lra). rewrite Cmod_mult.
      replace (Cmod (e - 1)%C * Cmod z * (Cmod (e - 1)%C * Cmod z))%R with ((Cmod (e - 1)%C * Cmod (e - 1)%C) * (Cmod z * Cmod z))%R by ring.
      apply Rmult_le_compat_r; [apply Rle_0_sqr|]. rewrite Cmod_sq. unfold e. destruct p as [|[|[|[|[|[|]]]]] [|]]; cbn; lra. }
    pose proof (H (u 0%nat)). pose proof (H (u 1%nat)). pose proof (H (u 2%nat)). pose proof (Rle_0_sqr (Cmod (u 0%nat))). pose proof (Rle_0_sqr (Cmod (u 1%nat))). pose proof (Rle_0_sqr (Cmod (u 2%nat))). unfold Rsqr in *. lra.
Qed.
Example slab_made : made_of slab (1, 3)%R 1 slab_eps (tuniform 1) None
  (Run_Model.construct (device_grid slab) true false 1 (1, 3)%R 1 slab_eps tzero tzero (tuniform 1) (fun _ _ => 1) None (fun _ _ => 5)).
Proof. refine (conj eq_refl (conj eq_refl _)). exists (fun _ _ => 1). reflexivity. Qed.
(** Left and right hand circular polarization from the front, nothing from the back. *)
Example slab_audible : audible slab (fun i => match i with 0%nat => 1 | 1%nat => Ci | _ => 0 end).
Proof.
  split.
  - right. exists 0%nat. rewrite slab_modes. split; [cbn; lia|]. cbn [Nat.mul Nat.add]. rewrite Cmod_1. lra.
  - left. rewrite slab_modes. cbn [n_pol optics_of slab Modes_Model.vectorial]. intros i Hi. destruct i as [|[|]]; [reflexivity|reflexivity|lia].
Qed.
