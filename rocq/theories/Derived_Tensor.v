(** The algebra of tensor fields: products, differences, inverses; the curl is linear. *)
From Coq Require Import Reals Lra Lia List Arith Bool.
Require Import Verif.Base Verif.Cplx Verif.CSum Verif.Field Verif.Fourier_Model Verif.Fourier_Spec Verif.Fourier_Proofs.
Require Import Verif.Vec_Model Verif.Vec_Spec Verif.Vec_Proofs Verif.Solver_Model Verif.Solver_Spec Verif.Solver_Proofs.
Require Import Verif.Derived_Model Verif.Derived_Spec.
Import ListNotations.
Local Open Scope R_scope.
Local Open Scope C_scope.

Lemma tapply_tmul a b F c p : tapply (tmul a b) F c p = tapply a (tapply b F) c p.
Proof.
  destruct a as [f|m], b as [h|k]; cbn [tmul tapply].
  - ring.
  - rewrite <- csum_scal. apply csum_ext. intros; ring.
  - apply csum_ext. intros; ring.
  - rewrite (csum_ext _ _ (fun j => csum 3 (fun k0 => m c k0 p * k k0 j p * F j p))) by (intros; symmetry; apply csum_scal_r).
    rewrite csum_swap. apply csum_ext. intros j Hj. rewrite <- csum_scal. apply csum_ext. intros; ring.
Qed.
Lemma tapply_tsub a b F c p : (c < 3)%nat -> tapply (tsub a b) F c p = tapply a F c p - tapply b F c p.
Proof.
  intros Hc. destruct a as [f|m], b as [h|k]; cbn [tsub tapply].
  - ring.
  - destruct c as [|[|[|c]]]; [| | |lia]; cbn; ring.
  - destruct c as [|[|[|c]]]; [| | |lia]; cbn; ring.
  - destruct c as [|[|[|c]]]; [| | |lia]; cbn; ring.
Qed.
Lemma tapply_plus3 t F G c p : tapply t (fun c p => F c p + G c p) c p = tapply t F c p + tapply t G c p.
Proof. destruct t; cbn [tapply]; [ring|]. rewrite <- csum_plus. apply csum_ext. intros; ring. Qed.
Lemma tapply_ext3 s t F G : vagree 3 s F G -> vagree 3 s (tapply t F) (tapply t G).
Proof. apply tapply_vagree. left. reflexivity. Qed.

(** ** Inverses *)
Definition unit_vector (i : nat) : vfield := fun c _ => if Nat.eqb c i then 1 else 0.
Lemma tinv_left_matrix m F c p : det3 (fun i j => m i j p) <> 0 -> (c < 3)%nat -> tapply (tinv (TMatrix m)) (tapply (TMatrix m) F) c p = F c p.
Proof.
  intros Hd Hc. destruct c as [|[|[|c]]]; [| | |lia]; cbn; unfold inv3; cbn; unfold det3 in *; field; exact Hd.
Qed.
Lemma tinv_left_scalar (f : sfield) F c p : f p <> 0 -> tapply (tinv (TScalar f)) (tapply (TScalar f) F) c p = F c p.
Proof. intros Hf. cbn. field. exact Hf. Qed.

Lemma inverse_matrix_matrix (a b : nat -> nat -> C) :
  (forall i j, (i < 3)%nat -> (j < 3)%nat -> csum 3 (fun k => a i k * b k j) = eye i j) -> det3 a <> 0.
Proof.
  intros H E.
  assert (det3 a * det3 b = 1) as H1.
  { transitivity (det3 (fun i j => csum 3 (fun k => a i k * b k j))); [unfold det3; cbn; ring|].
    unfold det3. rewrite !H by lia. unfold eye. cbn. ring. }
  rewrite E in H1. apply (f_equal fst) in H1. cbn in H1. lra.
Qed.

Lemma inverse_regular s mu nu p : inverse_of s mu nu -> inside s p ->
  match mu with TScalar f => f p <> 0 | TMatrix m => det3 (fun i j => m i j p) <> 0 end.
Proof.
  intros H Hp. destruct mu as [f|m].
  - intros E. pose proof (proj1 (H (unit_vector 0)) 0%nat p ltac:(lia) Hp) as H0. cbn in H0. rewrite E in H0.
    apply (f_equal fst) in H0. revert H0. destruct nu; cbn; intros; lra.
  - assert (forall i j, (i < 3)%nat -> (j < 3)%nat -> csum 3 (fun k => m i k p * match nu with TScalar f => eye k j * f p | TMatrix n => n k j p end) = eye i j) as H0.
    { intros i j Hi Hj. pose proof (proj1 (H (unit_vector j)) i p Hi Hp) as H0. unfold eye. unfold unit_vector at 2 in H0. rewrite <- H0.
      cbn [tapply]. apply csum_ext. intros k Hk. f_equal. destruct nu as [f|n]; cbn [tapply].
      - unfold unit_vector. ring.
      - unfold unit_vector. rewrite (csum_ext _ _ (fun q => if Nat.eqb q j then n k q p else 0)).
        + rewrite (csum_delta 3 j (fun q => n k q p)) by assumption. reflexivity.
        + intros q _. destruct (Nat.eqb q j); ring. }
    exact (inverse_matrix_matrix _ _ H0).
Qed.
Lemma tinv_inverse s mu nu F : inverse_of s mu nu -> vagree 3 s (tapply (tinv mu) F) (tapply nu F).
Proof.
  intros H. apply vagree_trans with (tapply (tinv mu) (tapply mu (tapply nu F))).
  - apply vagree_sym, tapply_ext3, (proj1 (H F)).
  - intros c p Hc Hp. pose proof (inverse_regular s mu nu p H Hp) as Hr. destruct mu.
    + apply tinv_left_scalar. exact Hr.
    + apply tinv_left_matrix; assumption.
Qed.

(** ** The curl is linear *)
Lemma curl_plus g F G : (rndim g <= 3)%nat -> vagree 3 (rshape g) (curl g 3 (fun c p => F c p + G c p)) (fun c p => curl g 3 F c p + curl g 3 G c p).
Proof.
  intros Hn c p Hc Hp. unfold curl, convolve, vift. rewrite <- ift_plus. apply ift_ext. intros k Hk. rewrite !curl_ft_cross by assumption.
  unfold vft, cross3. destruct c as [|[|c]]; rewrite !ft_plus; ring.
Qed.
Lemma curl_zero g : (rndim g <= 3)%nat -> vagree 3 (rshape g) (curl g 3 (fun _ _ => 0)) (fun _ _ => 0).
Proof.
  intros Hn c p Hc Hp. transitivity (curl g 3 (fun c p => 0 * 0) c p).
  - apply curl_vagree; [assumption| |assumption|assumption]. intros d q _ _. ring.
  - rewrite (curl_scal g (fun _ _ => 0) 0) by assumption. ring.
Qed.
Lemma tapply_zero t c p : tapply t (fun _ _ => 0) c p = 0.
Proof. destruct t; cbn [tapply]; [ring|]. rewrite (csum_ext _ _ (fun _ => 0)) by (intros; ring). apply csum_zero. Qed.
