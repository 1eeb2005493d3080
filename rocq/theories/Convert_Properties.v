(** Properties of inv and convert (C33, C35, C83). *)
Require Import Verif.Base Verif.Convert_Model Verif.Convert_Spec Verif.Convert_Proofs.
From mathcomp Require Import all_ssreflect all_algebra.
Set Implicit Arguments.
Unset Strict Implicit.
Unset Printing Implicit Defensive.
Import Order.POrderTheory GRing.Theory Num.Theory.
Local Open Scope ring_scope.

(** ** C33: from scattering to transfer matrices and back *)
Theorem convert_succeeds (F : fieldType) (h : nat) (s : 'M[F]_(h + h)) : drsubmx s \in unitmx -> exists t, convert (@linalg_inv F h) id s = Ok t.
Proof. move=> U; eexists; exact: convert_ok. Qed.
Print Assumptions convert_succeeds.
Theorem convert_twice (F : fieldType) (h : nat) (s t : 'M[F]_(h + h)) : convert (@linalg_inv F h) id s = Ok t -> convert (@linalg_inv F h) id t = Ok s.
Proof. exact: convert_involutive. Qed.
Print Assumptions convert_twice.
Theorem convert_is_transfer (F : fieldType) (h : nat) (s t : 'M[F]_(h + h)) (p_in n_in p_out n_out : 'cV[F]_h) :
  convert (@linalg_inv F h) id s = Ok t ->
  (s *m col_mx p_in n_in = col_mx p_out n_out <-> t *m col_mx p_in n_out = col_mx p_out n_in).
Proof. exact: convert_transfers. Qed.
Print Assumptions convert_is_transfer.
Theorem convert_singular_rejected (F : fieldType) (h : nat) (s : 'M[F]_(h + h)) : drsubmx s \notin unitmx -> convert (@linalg_inv F h) id s = Err OtherException.
Proof. exact: convert_singular. Qed.
Print Assumptions convert_singular_rejected.

(** ** C83: the conversion of an array of integers *)
Theorem convert_integer_array_refuted (a b c d : int) : 1 < `|d| ->
  convert (@linalg_inv [fieldType of rat] 1) to_integer (block_mx (a%:~R)%:M (b%:~R)%:M (c%:~R)%:M (d%:~R)%:M) = Ok (block_mx (a%:~R)%:M 0 0 0) /\
  convert (@linalg_inv [fieldType of rat] 1) to_integer (block_mx (a%:~R)%:M 0 0 0) = Err OtherException.
Proof. split; [exact: convert_integers|exact: convert_integers_back]. Qed.
Print Assumptions convert_integer_array_refuted.

(** ** C35: inverses *)
Theorem inv_without_noise (F : numClosedFieldType) (n : nat) (svd : 'M[F]_n -> decomposition F n) (A B : 'M[F]_n) :
  inv svd 0 A = Ok B -> A *m B = 1%:M /\ B *m A = 1%:M.
Proof. exact: inv_exact. Qed.
Print Assumptions inv_without_noise.
Theorem inv_without_noise_finds (F : numClosedFieldType) (n : nat) (svd : 'M[F]_n -> decomposition F n) (A B : 'M[F]_n) :
  A *m B = 1%:M -> inv svd 0 A = Ok B.
Proof. exact: inv_exact_ok. Qed.
Print Assumptions inv_without_noise_finds.
Theorem inv_with_noise (F : numClosedFieldType) (n : nat) (svd : 'M[F]_n -> decomposition F n) (A : 'M[F]_n) (noise : F) :
  0 < noise -> decomposes A (svd A) ->
  exists B, [/\ inv svd noise A = Ok B, (hermitian A *m A + (noise ^+ 2)%:M) \in unitmx &
                B = invmx (hermitian A *m A + (noise ^+ 2)%:M) *m hermitian A].
Proof. exact: inv_tikhonov. Qed.
Print Assumptions inv_with_noise.
Theorem inv_rectangular_refuted (regularize : bool) (m n : nat) : (0 < n)%N -> m <> n -> exists e, inv_shape regularize m n = Err e.
Proof. exact: inv_shape_rectangular. Qed.
Print Assumptions inv_rectangular_refuted.
Theorem inv_square_shape (regularize : bool) (n : nat) : inv_shape regularize n n = Ok (n, n).
Proof. exact: inv_shape_square. Qed.
Print Assumptions inv_square_shape.

(** ** The hypotheses can be met *)
Example convert_nonvacuous (F : fieldType) : drsubmx (block_mx (0 : 'M[F]_2) 1%:M 1%:M 1%:M) \in unitmx.
Proof. by rewrite block_mxKdr unitmx1. Qed.
Example decomposes_nonvacuous (F : numClosedFieldType) : decomposes (- (2%:R)%:M : 'M[F]_2) {| svd_u := - 1%:M; svd_sigma := const_mx 2%:R; svd_vh := 1%:M |}.
Proof.
  have H1 : hermitian (1%:M : 'M[F]_2) = 1%:M by rewrite /hermitian trmx1 map_mx1.
  have H2 : hermitian (- 1%:M : 'M[F]_2) = - 1%:M by rewrite /hermitian raddfN /= raddfN /= trmx1 map_mx1.
  split => /=.
  - by rewrite diag_const_mx mulmx1 mulNmx mul1mx.
  - by rewrite H2 mulNmx mulmxN opprK mulmx1.
  - by rewrite H1 mulmx1.
  - by move=> i; rewrite mxE ler0n.
Qed.
Example integer_nonvacuous : 1 < `|2%:Z|.
Proof. by []. Qed.
