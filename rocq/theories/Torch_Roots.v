(** Roots and eigenvalues with the torch back-end, and cases in which the back-ends differ. *)
From Coq Require Import Reals Lra List Arith Bool Lia Sorted.
Require Import Verif.Base Verif.Num Verif.Cplx Verif.CSum Verif.Solver_Model Verif.Modes_Model Verif.Array_Model Verif.Array_Spec Verif.Array_Proofs Verif.Array_Assign Verif.Array_Glue
  Verif.Roots_Model Verif.Roots_Spec Verif.Roots_Formulas Verif.Roots_Proofs Verif.Roots_Eigen Verif.Torch_Model Verif.Torch_Spec Verif.Torch_Proofs.
Import ListNotations.
Local Open Scope R_scope.
Local Open Scope C_scope.

Lemma real_parts_real roots : List.Forall (fun x : C => snd x = 0%R) roots -> real_parts (map Some roots) = map Some roots.
Proof. induction 1 as [|x l Hx H IH]; [reflexivity|]. cbn [real_parts map option_map] in *. unfold real_parts in IH. rewrite IH. f_equal. f_equal. destruct x as [u w]. cbn in Hx. subst w. reflexivity. Qed.
Lemma torch_eigh eps arr : torch_mat3_eigh eps [3%nat; 3%nat] arr = rmap real_parts (mat3_eigh eps [3%nat; 3%nat] arr).
Proof. unfold torch_mat3_eigh, mat3_eigh. cbn [Nat.eqb andb]. apply torch_roots_real. Qed.
Lemma torch_eigh_same (eps : R) (arr : list nat -> C) : (0 < eps)%R -> (2 * eps <= 1)%R -> hermitian (fun i j => arr [i; j]) -> scaled eps (characteristic (fun i j => arr [i; j])) ->
  torch_mat3_eigh eps [3%nat; 3%nat] arr = mat3_eigh eps [3%nat; 3%nat] arr.
Proof.
  intros He He2 Hh Hs. destruct (mat3_exact eps arr He He2 Hs) as (roots & E & _ & _ & _ & Hr). rewrite torch_eigh, E. cbn [rmap]. f_equal. apply real_parts_real, Hr, Hh.
Qed.
Lemma torch_eigh_near (eps : R) (arr : list nat -> C) : let A := fun i j => arr [i; j] in (0 < eps)%R -> (2 * eps <= 1)%R -> hermitian A ->
  exists roots exact, torch_mat3_eigh eps [3%nat; 3%nat] arr = Ok (map Some roots) /\ (forall x, det3 (minus_x A x) = - product_of exact x) /\ List.Forall (eigenvalue A) exact /\
    Forall2 (fun x y => (Cmod (x - y)%C <= 2 * sqrt eps)%R) roots exact.
Proof.
  intros A He He2 Hh. destruct (mat3_near eps arr He He2) as (roots & exact & E & H1 & H2 & H3). fold A in H1, H2.
  exists (map (fun z : C => RtoC (fst z)) roots), exact. split; [|split; [exact H1|split; [exact H2|]]].
  - rewrite torch_eigh, E. cbn [rmap]. f_equal. unfold real_parts. rewrite !map_map. reflexivity.
  - clear E H1. induction H3 as [|x y l m Hxy H IH]; [constructor|]. inversion H2 as [|? ? Hy Hm]; subst. cbn [map]. constructor; [|apply IH; exact Hm].
    eapply Rle_trans; [|exact Hxy]. pose proof (hermitian_real A y Hh Hy) as Hr.
    replace (RtoC (fst x) - y) with (RtoC (fst (x - y)%C)) by (destruct x, y; cbn in *; subst; unfold RtoC, Cminus, Cplus, Copp; cbn; f_equal; lra).
    rewrite Cmod_R. apply Cmod_Re_le.
Qed.

(** x^2 + 1. *)
Lemma torch_imaginary eps : (0 < eps)%R -> (eps < / 4)%R -> exists roots, torch_roots_of eps [RtoC 1; RtoC 0; RtoC 1] = Ok (map Some roots) /\
  roots <> [] /\ List.Forall (fun r => polynomial [RtoC 1; RtoC 0; RtoC 1] r <> 0) roots.
Proof.
  intros He He4. destruct (roots_found eps [RtoC 1; RtoC 0; RtoC 1] []) as (roots & E & _ & H); try assumption.
  - cbn; lia.
  - discriminate.
  - cbn [last]. rewrite Cmod_1. lra.
  - constructor.
  - cbn [length repeat app scaled]. right. left. rewrite Cmod_1. rewrite <- sqrt_1. apply sqrt_lt_1_alt. lra.
  - left. reflexivity.
  - cbn [app length repeat] in E. rewrite app_nil_r in E. exists (map (fun z : C => RtoC (fst z)) roots). split; [|split].
    + rewrite torch_roots_real, E. cbn [rmap]. f_equal. unfold real_parts. rewrite !map_map. reflexivity.
    + intros N. apply map_eq_nil in N. subst roots. specialize (H (RtoC 1)). rewrite polynomial_horner in H. cbn [horner last product_of fold_right] in H.
      assert (RtoC 1 = 0) as X by (transitivity (RtoC 1 + RtoC 1 * (RtoC 0 + RtoC 1 * (RtoC 1 + RtoC 1 * RtoC 0)) - RtoC 1 * RtoC 1); [ring|rewrite H; ring]). apply RtoC_inj in X. lra.
    + apply Forall_map. apply Forall_forall. intros r Hr. cbv beta. rewrite polynomial_horner. cbn [horner].
      replace (RtoC 1 + RtoC (fst r) * (RtoC 0 + RtoC (fst r) * (RtoC 1 + RtoC (fst r) * RtoC 0))) with (RtoC (1 + fst r * fst r)) by (rewrite RtoC_plus, RtoC_mult; ring).
      intros X. apply RtoC_inj in X. nra.
Qed.

(** ** Differences *)
(** A number after a number. *)
Lemma number_after_number : let o := to_matrix_field 1 (number (Ci / RtoC 1 / RtoC 1)) in
  assign_source true [2%nat] 1%R 1%R (Some o) (VNumber (RtoC 2)) = (Err ValueError : result array) /\ exists c, torch_assign_source [2%nat] 1 1 (Some o) (VNumber (RtoC 2)) = Ok c.
Proof.
  cbv zeta. split.
  - unfold assign_source, assign. cbv zeta. unfold to_matrix_field, number. cbn. reflexivity.
  - eexists. unfold torch_assign_source, torch_assign. cbv zeta. unfold to_matrix_field, number. cbn. reflexivity.
Qed.
(** Excess axes. *)
Lemma excess_axes : let a := Arr [1; 1; 1; 2]%nat (fun p => RtoC (INR (nth 3 p 0%nat))) in
  assign true [2%nat] (field_shape true [2%nat]) a = Err ValueError /\ exists c, torch_assign [2%nat] (field_shape true [2%nat]) a = Ok c.
Proof.
  cbv zeta. split.
  - unfold assign. cbv zeta. unfold to_matrix_field. cbn. reflexivity.
  - eexists. unfold torch_assign. cbv zeta. unfold to_matrix_field. cbn. reflexivity.
Qed.
(** A destination that is not the right factor. *)
Definition single (x : C) : array := Arr [1; 1]%nat (fun _ => x).
Lemma into_other : exists r c, mul_into (single (RtoC 2)) (single (RtoC 3)) (single (RtoC 5)) = Ok (r, r) /\ torch_mul_into (single (RtoC 2)) (single (RtoC 3)) (single (RtoC 5)) = Ok (r, r) /\ mul (single (RtoC 2)) (single (RtoC 3)) = Ok c /\ aget r [0; 0]%nat = RtoC 10 /\ aget c [0; 0]%nat = RtoC 6.
Proof.
  eexists. eexists. split; [reflexivity|]. split; [reflexivity|]. split; [reflexivity|]. cbn. rewrite <- !RtoC_mult. split; f_equal; lra.
Qed.
(** The inner size of one factor is 1. *)
Definition column : array := Arr [3; 1]%nat (fun p => RtoC (INR (nth 0 p 0%nat))).
Lemma inner_singleton : exists c, mul column column = Ok c /\ torch_mul column column = Err ValueError.
Proof. eexists. split; [reflexivity|reflexivity]. Qed.
