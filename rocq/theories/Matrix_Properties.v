(** Properties of matrices, their quarters and their caches (C34, C36, C37, C81, C82, C84). *)
From Coq Require Import Reals List Arith Bool ZArith Lia Lra.
Require Import Verif.Base Verif.Cplx Verif.CSum Verif.Matrix_Model Verif.Matrix_Spec Verif.Matrix_Proofs Verif.Matrix_Cache.
Import ListNotations.
Local Open Scope R_scope.
Local Open Scope C_scope.

(** ** C34: the quarters of a scattering matrix *)
Theorem quarters_are_blocks (M : matrix) (a : nat -> nat -> C) (h : nat) : multiplies_as M a -> mrows M = (h + h)%nat -> mcols M = (h + h)%nat ->
  exists FT BR FR BT,
    forward_transmission M = Ok FT /\ mrows FT = h /\ mcols FT = h /\ multiplies_as FT a /\
    back_reflection M = Ok BR /\ mrows BR = h /\ mcols BR = h /\ multiplies_as BR (fun i j => a i (j + h)%nat) /\
    front_reflection M = Ok FR /\ mrows FR = h /\ mcols FR = h /\ multiplies_as FR (fun i j => a (i + h)%nat j) /\
    backward_transmission M = Ok BT /\ mrows BT = h /\ mcols BT = h /\ multiplies_as BT (fun i j => a (i + h)%nat (j + h)%nat).
Proof. exact (quarters_blocks M a h). Qed.
Print Assumptions quarters_are_blocks.
Theorem quarters_reassemble (M : matrix) (a : nat -> nat -> C) (h : nat) : multiplies_as M a -> mrows M = (h + h)%nat -> mcols M = (h + h)%nat ->
  exists FT BR FR BT,
    forward_transmission M = Ok FT /\ back_reflection M = Ok BR /\ front_reflection M = Ok FR /\ backward_transmission M = Ok BT /\
    forall p n w, matvec M (stack h p n) = Ok w ->
      exists FTp BRn FRp BTn, matvec FT p = Ok FTp /\ matvec BR n = Ok BRn /\ matvec FR p = Ok FRp /\ matvec BT n = Ok BTn /\
        same (h + h) w (stack h (fun i => FTp i + BRn i) (fun i => FRp i + BTn i)).
Proof. exact (quarters_act M a h). Qed.
Print Assumptions quarters_reassemble.
Theorem quarters_odd_rejected (M : matrix) (backwards_output backwards_input : bool) : Nat.Odd (mrows M) -> quarter M backwards_output backwards_input = Err TypeError.
Proof. exact (quarter_odd M backwards_output backwards_input). Qed.
Print Assumptions quarters_odd_rejected.

(** ** C36: caching *)
(** Also for the products of a ScatteringMatrix, which allocate the result first. *)
Theorem caching_transparent (f : vec -> vec) (n m : nat) : homogeneous n m f -> forall (b : bool) (history : list operation) (rhs : list vec),
  exists rs s, cached f n true (after f n b history) rhs = Ok (rs, s) /\ Forall2 (fun v w => same m w (f v)) rhs rs.
Proof. exact (cache_transparent f n m). Qed.
Print Assumptions caching_transparent.
Theorem caching_evaluates_once (f : vec -> vec) (n : nat) (history : list operation) : (forall b, ~ In (SetCaching b) history) ->
  ForallOrdPairs (fun v w => forall b, ~ (along n b v /\ along n b w)) (ccalls (after f n true history)).
Proof. exact (evaluated_once f n history). Qed.
Print Assumptions caching_evaluates_once.
Theorem caching_without_out_refuted (f : vec -> vec) (n b : nat) : (b < n)%nat ->
  cached f n false (after f n true [Multiply false [basis b]]) [basis b] = Err TypeError /\
  cached f n false (after f n true [Multiply false [basis b]]) [zero_vec] = Err TypeError.
Proof. exact (no_out_fails f n b). Qed.
Print Assumptions caching_without_out_refuted.

(** ** C37: elements, arrays and the adjoint *)
Theorem array_is_products (M : matrix) (a : nat -> nat -> C) : multiplies_as M a ->
  exists b, to_array M = Ok b /\ forall i j, (i < mrows M)%nat -> (j < mcols M)%nat -> b i j = a i j.
Proof. exact (array_of M a). Qed.
Print Assumptions array_is_products.
Theorem array_columns (M : matrix) (a : nat -> nat -> C) : multiplies_as M a ->
  exists b, to_array M = Ok b /\ forall j, (j < mcols M)%nat -> exists w, matvec M (basis j) = Ok w /\ same (mrows M) w (fun i => b i j).
Proof. exact (array_of_basis M a). Qed.
Print Assumptions array_columns.
Theorem elements_square_partial (M : matrix) (a : nat -> nat -> C) (row col : selector) (is js : list nat) : multiplies_as M a -> mrows M = mcols M ->
  select (mrows M) row = Ok is -> select (mcols M) col = Ok js -> js <> [] -> getitem M row col = Ok (map (fun i => map (fun j => a i j) js) is).
Proof. exact (getitem_square M a row col is js). Qed.
Print Assumptions elements_square_partial.
Theorem elements_no_column_refuted (M : matrix) (row col : selector) : select (mrows M) col = Ok [] -> getitem M row col = Err ValueError.
Proof. exact (getitem_no_column M row col). Qed.
Print Assumptions elements_no_column_refuted.
Theorem elements_rectangular_refuted (M : matrix) (row col : selector) (js : list nat) : mrows M <> mcols M -> select (mrows M) col = Ok js ->
  getitem M row col = Err ValueError.
Proof. exact (getitem_rectangular M row col js). Qed.
Print Assumptions elements_rectangular_refuted.
Theorem adjoint_of_products (M : matrix) (a : nat -> nat -> C) : multiplies_as M a ->
  exists b, adjoint_array M = Ok b /\
    forall x y w, matvec M y = Ok w -> inner (mrows M) x w = inner (mcols M) (fun i => csum (mrows M) (fun j => b i j * x j)) y.
Proof. exact (adjoint_inner M a). Qed.
Print Assumptions adjoint_of_products.

(** ** C81: numpy functions of matrices *)
Theorem ufunc_first_argument {A} (f : list (nat -> nat -> C) -> A) (M : matrix) (a : nat -> nat -> C) (rest : list operand) (d : nat) :
  to_array M = Ok a -> forallb is_arr rest = true -> call_ufunc (S (S d)) f (OMatrix M :: rest) = Some (Ok (f (a :: map arr rest))).
Proof. exact (ufunc_first f M a rest d). Qed.
Print Assumptions ufunc_first_argument.
Theorem ufunc_later_argument_refuted {A} (f : list (nat -> nat -> C) -> A) (x : nat -> nat -> C) (M : matrix) (a : nat -> nat -> C) (d : nat) :
  to_array M = Ok a -> call_ufunc d f [OArray x; OMatrix M] = None.
Proof. exact (ufunc_second f x M a d). Qed.
Print Assumptions ufunc_later_argument_refuted.
Theorem ufunc_two_matrices_refuted {A} (f : list (nat -> nat -> C) -> A) (M N : matrix) (a b : nat -> nat -> C) (d : nat) :
  to_array M = Ok a -> to_array N = Ok b -> call_ufunc d f [OMatrix M; OMatrix N] = None.
Proof. exact (ufunc_both f M N a b d). Qed.
Print Assumptions ufunc_two_matrices_refuted.

(** ** C82: output functions of a DepositionMatrix *)
Theorem deposition_output_vector (f : vec -> vec) (axes : nat) (v : vec) (d : nat) : (axes <= 1)%nat -> apply_output (S (S d)) f axes v = Some (f v).
Proof. exact (output_vector f axes v d). Qed.
Print Assumptions deposition_output_vector.
Theorem deposition_output_array_refuted (f : vec -> vec) (axes : nat) (v : vec) (d : nat) : (1 < axes)%nat -> apply_output d f axes v = None.
Proof. exact (output_array f axes v d). Qed.
Print Assumptions deposition_output_array_refuted.

(** ** C84: a matrix without an array *)
Theorem no_array_refuted (n : nat) (v : vec) : matvec {| mrows := n; mcols := n; mcontents := NoArray |} v = Err ValueError.
Proof. reflexivity. Qed.
Print Assumptions no_array_refuted.

(** ** The hypotheses can be met *)
Definition example_matrix : matrix := {| mrows := 4; mcols := 4; mcontents := Array (fun i j => RtoC (INR (i + 2 * j))) |}.
Example matrix_nonvacuous : multiplies_as example_matrix (fun i j => RtoC (INR (i + 2 * j))) /\ mrows example_matrix = (2 + 2)%nat /\ mcols example_matrix = (2 + 2)%nat.
Proof. split; [apply literal_multiplies|split; reflexivity]. Qed.
Definition example_operator : matrix := {| mrows := 2; mcols := 3; mcontents := Operator (fun v => Ok (fun i => v i + v (S i))) |}.
Example operator_nonvacuous : multiplies_as example_operator (fun i j => if ((j =? i) || (j =? S i))%nat then 1 else 0) /\ mrows example_operator <> mcols example_operator.
Proof.
  split; [|discriminate]. intros v. exists (fun i => v i + v (S i)). split; [reflexivity|]. intros i Hi. change (mrows example_operator) with 2%nat in Hi. change (mcols example_operator) with 3%nat.
  destruct i as [|[|]]; [| |lia]; cbn [csum Nat.eqb orb]; ring.
Qed.
Example selectors_nonvacuous : select 4 (SInt (-1)) = Ok [3%nat] /\ select 4 SAll = Ok [0; 1; 2; 3]%nat /\ select 4 (SList [2; -4]%Z) = Ok [2; 0]%nat /\ select 4 (SInt 4) = Err IndexError.
Proof. repeat split. Qed.
Example homogeneous_nonvacuous : homogeneous 3 2 (fun v i => v i + Ci * v (S i)).
Proof.
  split.
  - intros v w H i Hi. rewrite (H i), (H (S i)) by lia. reflexivity.
  - intros c v i Hi. ring.
Qed.
Example ufunc_nonvacuous : exists a, to_array example_matrix = Ok a.
Proof. eexists. reflexivity. Qed.
