(** Roots of polynomials: C29, C88, C89; eigenvalues: C30, C90. *)
From Coq Require Import Reals List Arith Bool Lra Lia Sorted.
Require Import Verif.Base Verif.Cplx Verif.CSum Verif.Modes_Model Verif.Roots_Model Verif.Roots_Spec Verif.Roots_Formulas Verif.Roots_Proofs Verif.Roots_Eigen.
From Coquelicot Require Import Complex.
Import ListNotations.
Local Open Scope R_scope.
Local Open Scope C_scope.

(** ** Polynomials *)
(** The polynomial low, of order 0 to 3, followed by leading coefficients that count as zero: all roots, sorted, and a nan for each
    missing one. Coefficients must not be so small that the code takes them for zero, and when there are missing roots then the
    non-zero roots must be larger than sqrt eps. *)
Theorem polynomial_roots : forall (eps : R) (low high : list C), (0 < eps)%R -> (2 <= length (low ++ high) <= 4)%nat -> low <> [] -> (2 * eps <= Cmod (last low (RtoC 0)))%R ->
  Forall (fun c => (Cmod c < 2 * eps)%R) high -> scaled eps (repeat (RtoC 0) (length high) ++ low) ->
  (high = [] \/ forall x : C, x <> 0 -> polynomial low x = 0 -> (sqrt eps < Cmod x)%R) ->
  exists roots, roots_of eps (low ++ high) = Ok (map Some roots ++ repeat None (length high)) /\ StronglySorted cle roots /\ has_roots low roots.
Proof. exact roots_found. Qed.
Print Assumptions polynomial_roots.
(** Polynomials of third order: whatever the scale, the values are within 2 sqrt eps of the roots. *)
Theorem cubic_roots_error : forall (eps : R) (c0 c1 c2 c3 : C), (0 < eps)%R -> (2 * eps <= Cmod c3)%R ->
  exists roots exact, roots_of eps [c0; c1; c2; c3] = Ok (map Some roots) /\ StronglySorted cle roots /\ has_roots [c0; c1; c2; c3] exact /\
    Forall2 (fun x y => (Cmod (x - y)%C <= 2 * sqrt eps)%R) roots exact.
Proof. exact cubic_roots_near. Qed.
Print Assumptions cubic_roots_error.
(** Only coefficients that count as zero: only nan. *)
Theorem zero_polynomial_roots : forall (eps : R) l, (0 < eps)%R -> (2 <= length l <= 4)%nat -> Forall (fun c => (Cmod c < 2 * eps)%R) l -> roots_of eps l = Ok (repeat None (length l - 1)).
Proof. exact roots_all_negligible. Qed.
Print Assumptions zero_polynomial_roots.
(** evaluate_polynomial is the value of the polynomial. *)
Theorem polynomial_value : forall l x, evaluate_polynomial l x = polynomial l x.
Proof. exact evaluate_spec. Qed.
Print Assumptions polynomial_value.
(** x^2 + 1, multiplied by a number between 2 eps and sqrt eps (4.4e-16 to 1.5e-8): one of the values is not a root. *)
Theorem small_quadratic_refuted : forall eps e, (0 < eps)%R -> (2 * eps <= e)%R -> (e <= sqrt eps)%R ->
  exists roots, roots_of eps [RtoC e; RtoC 0; RtoC e] = Ok (map Some roots) /\ exists r, In r roots /\ polynomial [RtoC e; RtoC 0; RtoC e] r <> 0.
Proof. exact small_quadratic. Qed.
Print Assumptions small_quadratic_refuted.
(** x^2 - 1, multiplied by a number below 2 eps: no roots. *)
Theorem tiny_quadratic_refuted : forall eps e, (0 < eps)%R -> (0 < e < 2 * eps)%R ->
  roots_of eps [RtoC (- e); RtoC 0; RtoC e] = Ok [None; None] /\ has_roots [RtoC (- e); RtoC 0; RtoC e] [RtoC (-1); RtoC 1].
Proof.
  intros eps e He H. split.
  - apply (roots_all_negligible eps [RtoC (- e); RtoC 0; RtoC e] He); [cbn; lia|]. repeat apply Forall_cons; try apply Forall_nil; rewrite ?Cmod_0, ?Cmod_R; [rewrite Rabs_left|idtac|rewrite Rabs_pos_eq]; lra.
  - intros x. rewrite polynomial_horner. cbn [horner last product_of fold_right]. replace (RtoC (-1)) with (- (1)) by (rewrite <- RtoC_opp; reflexivity). rewrite !RtoC_opp. ring.
Qed.
Print Assumptions tiny_quadratic_refuted.

(** ** The argument *)
(** An array with the back-end's data type is left as it was if its leading coefficient does not count as zero. *)
Theorem coefficients_unchanged_partial : forall eps l, (0 < eps)%R -> (2 * eps <= Cmod (last l (RtoC 0)))%R -> coefficients_after eps l = l.
Proof. exact coefficients_kept. Qed.
Print Assumptions coefficients_unchanged_partial.
(** Otherwise its coefficients are moved. *)
Theorem coefficients_unchanged_refuted : forall eps low high, (0 < eps)%R -> low <> [] -> high <> [] -> (2 * eps <= Cmod (last low (RtoC 0)))%R -> Forall (fun c => (Cmod c < 2 * eps)%R) high ->
  coefficients_after eps (low ++ high) = repeat (RtoC 0) (length high) ++ low.
Proof. exact coefficients_shifted. Qed.
Print Assumptions coefficients_unchanged_refuted.

(** ** Eigenvalues *)
(** The eigenvalues with their multiplicities, real and in order for Hermitian matrices, unless the eigenvalues differ by so little that the code
    takes the difference for zero. *)
Theorem matrix_eigenvalues : forall (eps : R) (arr : list nat -> C), let A := fun i j => arr [i; j] in (0 < eps)%R -> (2 * eps <= 1)%R -> scaled eps (characteristic A) ->
  exists roots, mat3_eigh eps [3%nat; 3%nat] arr = Ok (map Some roots) /\ StronglySorted cle roots /\ (forall x, det3 (minus_x A x) = - product_of roots x) /\ Forall (eigenvalue A) roots /\
    (hermitian A -> Forall (fun x => snd x = 0%R) roots).
Proof. exact mat3_exact. Qed.
Print Assumptions matrix_eigenvalues.
(** In any case they are within 2 sqrt eps of the eigenvalues. *)
Theorem matrix_eigenvalues_error : forall (eps : R) (arr : list nat -> C), let A := fun i j => arr [i; j] in (0 < eps)%R -> (2 * eps <= 1)%R ->
  exists roots exact, mat3_eigh eps [3%nat; 3%nat] arr = Ok (map Some roots) /\ (forall x, det3 (minus_x A x) = - product_of exact x) /\ Forall (eigenvalue A) exact /\
    Forall2 (fun x y => (Cmod (x - y)%C <= 2 * sqrt eps)%R) roots exact.
Proof. exact mat3_near. Qed.
Print Assumptions matrix_eigenvalues_error.
(** The roots of det (A - x) are the eigenvalues. *)
Theorem determinant_eigenvalue : forall A x, det3 (minus_x A x) = 0 <-> eigenvalue A x.
Proof. exact det_eigenvalue. Qed.
Print Assumptions determinant_eigenvalue.
(** Diagonals, as rows or columns, and scalars: the values themselves. *)
Theorem diagonal_eigenvalues : forall (eps : R) (arr : list nat -> C),
  mat3_eigh eps [3%nat; 1%nat] arr = Ok (map (fun i => Some (arr [i; 0%nat])) [0; 1; 2]%nat) /\
  mat3_eigh eps [1%nat; 3%nat] arr = Ok (map (fun j => Some (arr [0%nat; j])) [0; 1; 2]%nat) /\
  mat3_eigh eps [1%nat; 1%nat] arr = Ok [Some (arr [0%nat; 0%nat])].
Proof. intros. repeat split. Qed.
Print Assumptions diagonal_eigenvalues.
(** Fields with less than two matrix axes are not padded: there is an exception. *)
Theorem fewer_axes_refuted : forall (eps : R) (arr : list nat -> C) n, mat3_eigh eps [] arr = Err AttributeError /\ mat3_eigh eps [n] arr = Err AttributeError.
Proof. intros. split; reflexivity. Qed.
Print Assumptions fewer_axes_refuted.

(** ** The hypotheses can be met *)
(** x^2 - 3 x + 2, given as a polynomial of third order, for eps = 1/100. *)
Example degenerate_case : exists roots, roots_of (/ 100) ([RtoC 2; RtoC (-3); RtoC 1] ++ [RtoC 0]) = Ok (map Some roots ++ [None]) /\ has_roots [RtoC 2; RtoC (-3); RtoC 1] roots.
Proof.
  assert (sqrt (/ 100) = / 10)%R as S by (replace (/ 100)%R with (/ 10 * / 10)%R by field; apply sqrt_square; lra).
  destruct (polynomial_roots (/ 100) [RtoC 2; RtoC (-3); RtoC 1] [RtoC 0]) as (roots & E & _ & H); [lra|cbn; lia|discriminate|cbn [last]; rewrite Cmod_1; lra|constructor; [rewrite Cmod_0; lra|constructor]| | |exists roots; auto].
  - right. left. unfold centred_q. cbn [repeat app length].
    replace (RtoC (-3) / RtoC 1 / RtoC 3 * (RtoC (-3) / RtoC 1 / RtoC 3) - RtoC 2 / RtoC 1 / RtoC 3) with (RtoC (/ 3)); [rewrite Cmod_R, Rabs_pos_eq; lra|].
    unfold Cdiv. rewrite <- !RtoC_inv, <- !RtoC_mult, <- RtoC_minus by lra. f_equal. field.
  - right. intros x _ Hx. rewrite S. rewrite polynomial_horner in Hx. cbn [horner] in Hx. replace (RtoC 2 + x * (RtoC (-3) + x * (RtoC 1 + x * RtoC 0))) with ((x - RtoC 1) * (x - RtoC 2)) in Hx.
    + apply C_integral in Hx as [Hx|Hx]; [replace x with (RtoC 1) by (transitivity (RtoC 1 + (x - RtoC 1)); [rewrite Hx; ring|ring]); rewrite Cmod_1; lra|].
      replace x with (RtoC 2) by (transitivity (RtoC 2 + (x - RtoC 2)); [rewrite Hx; ring|ring]). rewrite Cmod_R, Rabs_pos_eq; lra.
    + replace (RtoC (-3)) with (- (1 + 1 + 1)) by (rewrite <- three_eq, <- RtoC_opp; reflexivity). rewrite two_eq. ring.
Qed.
(** A Hermitian matrix that is not diagonal, with eigenvalues -1, 0 and 1. *)
Definition sigma (p : list nat) : C := match p with [0%nat; 1%nat] => (0, -1)%R | [1%nat; 0%nat] => (0, 1)%R | _ => 0 end.
Example hermitian_case : hermitian (fun i j => sigma [i; j]) /\ scaled (/ 100) (characteristic (fun i j => sigma [i; j])).
Proof.
  split.
  - intros i j Hi Hj. destruct i as [|[|[|]]], j as [|[|[|]]]; try lia; unfold sigma, Cconj, RtoC; cbn; f_equal; lra.
  - right. left. cbn [sigma]. unfold centred_q. replace (_ - _) with (RtoC (/ 3)); [rewrite Cmod_R, Rabs_pos_eq; lra|].
    assert ((0, -1)%R * (0, 1)%R = 1) as I by (unfold Cmult, RtoC; cbn; f_equal; ring). rewrite three_eq.
    replace (- (0) * (0 + 0) + _ + 0 * 0 - 0 * 0 + 0 * 0) with (RtoC 1) by (rewrite I; ring). replace (0 + 0 + 0) with (RtoC 0) by ring. rewrite RtoC_inv by lra. rewrite three_eq. unfold Cdiv. field. cnz.
Qed.
