(** Proofs about inv and convert. *)
Require Import Verif.Base Verif.Convert_Model Verif.Convert_Spec.
From mathcomp Require Import all_ssreflect all_algebra.
Set Implicit Arguments.
Unset Strict Implicit.
Unset Printing Implicit Defensive.
Import Order.POrderTheory GRing.Theory Num.Theory.
Local Open Scope ring_scope.

Lemma map_id (F : fieldType) m n (A : 'M[F]_(m, n)) : map_mx id A = A.
Proof. by apply/matrixP=> i j; rewrite mxE. Qed.

Section Convert.
  Variables (F : fieldType) (h : nat).
  Implicit Types s t : 'M[F]_(h + h).

  Lemma convert_ok s : drsubmx s \in unitmx -> convert (@linalg_inv F h) id s =
    Ok (block_mx (ulsubmx s - ursubmx s *m invmx (drsubmx s) *m dlsubmx s) (ursubmx s *m invmx (drsubmx s)) (- (invmx (drsubmx s) *m dlsubmx s)) (invmx (drsubmx s))).
  Proof.
    move=> U; rewrite /convert /linalg_inv U /= !map_id; congr (Ok (block_mx _ _ _ _)).
    - by rewrite mulNmx mulmxN mulmxA.
    - by rewrite mulNmx.
  Qed.
  Lemma convert_singular s : drsubmx s \notin unitmx -> convert (@linalg_inv F h) id s = Err OtherException.
  Proof. by move=> U; rewrite /convert /linalg_inv (negbTE U). Qed.
  Lemma convert_involutive s t : convert (@linalg_inv F h) id s = Ok t -> convert (@linalg_inv F h) id t = Ok s.
  Proof.
    case: (boolP (drsubmx s \in unitmx)) => U; last by rewrite convert_singular.
    rewrite convert_ok // => [[<-]]. rewrite convert_ok ?block_mxKdr ?unitmx_inv // invmxK block_mxKul block_mxKur block_mxKdl.
    rewrite mulmxKV // !mulmxN !opprK mulKVmx // mulmxA subrK. by rewrite submxK.
  Qed.
  Lemma convert_transfers s t (pi ni po no : 'cV[F]_h) : convert (@linalg_inv F h) id s = Ok t ->
    (s *m col_mx pi ni = col_mx po no <-> t *m col_mx pi no = col_mx po ni).
  Proof.
    case: (boolP (drsubmx s \in unitmx)) => U; last by rewrite convert_singular.
    rewrite convert_ok // => [[<-]]. rewrite -{1}(submxK s). move: (ulsubmx s) (ursubmx s) (dlsubmx s) (drsubmx s) U => a b c d U.
    rewrite !mul_block_col; split.
    - move=> /eq_col_mx [<- <-]; congr col_mx.
      + rewrite mulmxBl mulmxDr -!mulmxA mulKmx // addrA. by rewrite subrK.
      + rewrite mulNmx mulmxDr -mulmxA mulKmx // addrA addNr. by rewrite add0r.
    - move=> /eq_col_mx [<- <-]; congr col_mx.
      + by rewrite mulmxDr mulNmx mulmxN mulmxBl -!mulmxA addrA.
      + by rewrite mulmxDr mulNmx mulmxN -mulmxA !mulKVmx // addrA subrr add0r.
  Qed.
End Convert.

(** ** Regularised inverses *)
Section Inverse.
  Variables (F : numClosedFieldType) (n : nat).
  Implicit Types A B : 'M[F]_n.

  Lemma hermitian_mul A B : hermitian (A *m B) = hermitian B *m hermitian A.
  Proof. by rewrite /hermitian trmx_mul map_mxM. Qed.
  Lemma hermitian_diag (s : 'rV[F]_n) : (forall i, 0 <= s 0 i) -> hermitian (diag_mx s) = diag_mx s.
  Proof.
    move=> H; apply/matrixP=> i j; rewrite /hermitian !mxE eq_sym. case: eqP => [->|_]; last by rewrite mulr0n conjC0.
    by rewrite mulr1n geC0_conj.
  Qed.
  Lemma diag_mul (s t : 'rV[F]_n) : diag_mx s *m diag_mx t = diag_mx (\row_i (s 0 i * t 0 i)).
  Proof. by apply/matrixP=> i j; rewrite mul_diag_mx !mxE; case: eqP => [->|]; rewrite ?mulr1n // mulr0n mulr0. Qed.

  Lemma linalg_inv_inverts A B : linalg_inv A = Ok B -> A *m B = 1%:M /\ B *m A = 1%:M.
  Proof. by rewrite /linalg_inv; case: ifP => // U [<-]; rewrite mulmxV // mulVmx. Qed.
  Lemma inv_exact (svd : 'M[F]_n -> decomposition F n) A B : inv svd 0 A = Ok B -> A *m B = 1%:M /\ B *m A = 1%:M.
  Proof. by rewrite /inv ltxx; exact: linalg_inv_inverts. Qed.
  Lemma inv_exact_ok (svd : 'M[F]_n -> decomposition F n) A B : A *m B = 1%:M -> inv svd 0 A = Ok B.
  Proof.
    move=> AB; rewrite /inv ltxx /linalg_inv; have [U _] := mulmx1_unit AB. rewrite U; congr Ok.
    by rewrite -[LHS]mulmx1 -AB mulKmx.
  Qed.
  Lemma inv_tikhonov (svd : 'M[F]_n -> decomposition F n) A (noise : F) : 0 < noise -> decomposes A (svd A) ->
    exists B, [/\ inv svd noise A = Ok B, (hermitian A *m A + (noise ^+ 2)%:M) \in unitmx &
                  B = invmx (hermitian A *m A + (noise ^+ 2)%:M) *m hermitian A].
  Proof.
    move=> N0; case E : (svd A) => [u s v] [/= EA Hu Hv Hs].
    set d : 'rV[F]_n := \row_i (s 0 i ^+ 2 + noise ^+ 2).
    set di : 'rV[F]_n := \row_i (d 0 i)^-1.
    have Dpos i : 0 < d 0 i by rewrite mxE; apply: ltr_paddl; rewrite ?exprn_ge0 ?exprn_gt0.
    have Hv' : hermitian v *m v = 1%:M by exact: mulmx1C.
    have DD : diag_mx d *m diag_mx di = 1%:M.
      rewrite diag_mul -[RHS]diag_const_mx; congr diag_mx; apply/rowP=> i; rewrite !mxE -/(d 0 i).
      by rewrite divff //; have := lt0r_neq0 (Dpos i); rewrite mxE.
    have HA : hermitian A = hermitian v *m diag_mx s *m hermitian u.
      by rewrite EA !hermitian_mul hermitian_diag // mulmxA.
    have M : hermitian A *m A + (noise ^+ 2)%:M = hermitian v *m diag_mx d *m v.
      rewrite HA EA -!mulmxA (mulmxA (hermitian u)) Hu mul1mx (mulmxA (diag_mx s)) diag_mul.
      have -> : (noise ^+ 2)%:M = hermitian v *m ((noise ^+ 2)%:M *m v) by rewrite mulmxA scalar_mxC -mulmxA Hv' mulmx1.
      rewrite -mulmxDr -mulmxDl.
      congr (_ *m (_ *m _)); apply/matrixP=> i j; rewrite !mxE. by case: eqP => [->|_]; rewrite ?mulr1n ?expr2 ?mulr0n ?addr0.
    have MI : (hermitian v *m diag_mx d *m v) *m (hermitian v *m diag_mx di *m v) = 1%:M.
      by rewrite -!mulmxA (mulmxA v) Hv mul1mx (mulmxA (diag_mx d)) DD mul1mx.
    have [U _] := mulmx1_unit MI.
    eexists; split; first by rewrite /inv N0 E /=; reflexivity.
    - by rewrite M.
    - apply: (canRL (mulKmx _)); rewrite M //.
      rewrite -/(hermitian _) !hermitian_mul HA.
      set q := map_mx _ s.
      have Q : hermitian (diag_mx q) = diag_mx q.
        apply: hermitian_diag => i; rewrite mxE geC0_conj // divr_ge0 // addr_ge0 // ?exprn_ge0 //. by rewrite ltW.
      rewrite Q -!mulmxA (mulmxA v) Hv mul1mx; congr (_ *m _); rewrite !mulmxA; congr (_ *m _).
      rewrite diag_mul; congr diag_mx; apply/rowP=> i; rewrite mxE [q _ _]mxE geC0_conj // ger0_norm //.
      have := Dpos i; rewrite mxE => P. by rewrite mulrC divfK // lt0r_neq0.
  Qed.
End Inverse.

(** ** Arrays of integers *)
Lemma to_integer_int (i : int) : to_integer i%:~R = i%:~R.
Proof. by rewrite /to_integer numq_int denq_int divz1 -intEsg. Qed.
Lemma to_integer_inverse (d : int) : 1 < `|d| -> to_integer (d%:~R^-1) = 0.
Proof.
  move=> H; have D0 : d != 0 by apply/eqP=> E; rewrite E in H.
  rewrite /to_integer; have -> : (`|numq (d%:~R^-1)| %/ denq (d%:~R^-1))%Z = 0; last by rewrite mulr0.
  have N : `|numq (d%:~R^-1)| = 1 :> int.
    have := numqE (d%:~R^-1); rewrite (denqVz D0) => E.
    have := congr1 Num.norm E; rewrite normrM normfV -!intr_norm normr_id mulVf ?intr_eq0 ?normr_eq0 //.
    by move=> E1; apply/eqP; rewrite -(eqr_int [numDomainType of rat]) E1.
  by rewrite (denqVz D0) N divz_small // normr_id H.
Qed.
Lemma map_scalar (f : rat -> rat) (a : rat) : map_mx f (a%:M : 'M_1) = (f a)%:M.
Proof. by apply/matrixP=> i j; rewrite !mxE !ord1 eqxx !mulr1n. Qed.
Lemma convert_integers (a b c d : int) : 1 < `|d| ->
  convert (@linalg_inv [fieldType of rat] 1) to_integer (block_mx (a%:~R)%:M (b%:~R)%:M (c%:~R)%:M (d%:~R)%:M) = Ok (block_mx (a%:~R)%:M 0 0 0).
Proof.
  move=> H; have D0 : d != 0 by apply/eqP=> E; rewrite E in H.
  rewrite /convert block_mxKul block_mxKur block_mxKdl block_mxKdr /linalg_inv.
  have -> : ((d%:~R)%:M : 'M[rat]_1) \in unitmx by rewrite unitmxE det_scalar expr1 unitfE intr_eq0.
  have Z : to_integer 0 = 0 by exact: (to_integer_int 0).
  rewrite /= invmx_scalar map_scalar (to_integer_inverse H) raddf0 oppr0 mul0mx mulmx0.
  have -> : map_mx to_integer 0 = (0 : 'M_1) by rewrite -[0 in LHS](raddf0 (scalar_mx_additive _ _)) map_scalar Z raddf0.
  by rewrite mulmx0 addr0 map_scalar to_integer_int.
Qed.
Lemma convert_integers_back (a : int) : convert (@linalg_inv [fieldType of rat] 1) to_integer (block_mx (a%:~R)%:M 0 0 0) = Err OtherException.
Proof. by rewrite /convert block_mxKdr /linalg_inv unitmxE det0 unitfE eqxx. Qed.

(** ** Shapes *)
Lemma inv_shape_square b n : inv_shape b n n = Ok (n, n).
Proof. by rewrite /inv_shape /broadcast_axis minnn eqxx /= eqxx; case: b. Qed.
Lemma inv_shape_rectangular b m n : (0 < n)%N -> m <> n -> exists e, inv_shape b m n = Err e.
Proof.
  move=> N0 /eqP H; rewrite /inv_shape /broadcast_axis; case: b; last by rewrite (negbTE H); eexists.
  case: (leqP m n) => L.
  - by rewrite eqxx /= (negbTE H); eexists.
  - rewrite (negbTE H) /=; case: eqP => /= [E|N1]; first by rewrite (negbTE H); eexists.
    case: eqP => M1 /=; last by eexists.
    by move: L; rewrite M1 ltnS leqNgt N0.
Qed.
