(** C167: homogeneous magnetic and chiral media. *)
From Coq Require Import Reals Lra Lia List Arith.
Require Import Verif.Base Verif.Cplx Verif.CSum Verif.Field Verif.Fourier_Model Verif.Fourier_Spec Verif.Vec_Model Verif.Vec_Spec.
Require Import Verif.Solver_Model Verif.Solver_Spec Verif.Choice_Model Verif.Derived_Model Verif.Derived_Spec Verif.Magnetic_Spec Verif.Symmetry_Spec Verif.Maxwell_Spec Verif.Maxwell_Proofs.
Require Import Verif.Maxwell_Properties Verif.Circular_Spec Verif.Circular_Proofs.
Import ListNotations.
Local Open Scope R_scope.
Local Open Scope C_scope.

(** The spectrum of the field is that of the source i omega mu_0 J, of which the part along the wavevector and those of both circular polarisations are multiplied by the response of the medium to each. *)
Theorem homogeneous_chiral : forall eps u g k0 (epsilon xi zeta mu : C) settled thick loss J E, physical u -> magnetic_problem eps g k0 (tuniform epsilon) (tuniform xi) (tuniform zeta) (tuniform mu) settled loss ->
  let s := rshape g in computes 3 s k0 (construct eps g k0 true (tuniform epsilon) (tuniform xi) (tuniform zeta) (tuniform mu) settled thick (driving u k0 J)) E ->
  forall q c, inside s q -> (c < 3)%nat -> let K := wavevector g q in let k := sqrt (K 0%nat * K 0%nat + K 1%nat * K 1%nat + K 2%nat * K 2%nat) in
  let S i := ft s (driving u k0 J i) q in let G := response k0 epsilon xi zeta mu in
  ((k = 0)%R -> ft s (E c) q = G 0%R * S c) /\
  ((0 < k)%R -> ft s (E c) q = G 0%R * along K S c + G k * handed k K S c + G (- k)%R * handed (- k) K S c).
Proof. exact circular_spectrum. Qed.
Print Assumptions homogeneous_chiral.
(** A homogeneous chiral medium, which has a solution for any current; a wave in the direction of the first axis with one circular polarisation has no other part. *)
Example homogeneous_chiral_medium u thick J : physical u -> let e := (2, 1)%R in let x := (0, 1 / 2)%R in let z := (0, - (1 / 2))%R in let m := (1, 1 / 2)%R in
  magnetic_problem tiny chiral5 2 (tuniform e) (tuniform x) (tuniform z) (tuniform m) (0, 1)%R (1 / 2) /\
  (exists E, computes 3 (rshape chiral5) 2 (construct tiny chiral5 2 true (tuniform e) (tuniform x) (tuniform z) (tuniform m) (0, 1)%R thick (driving u 2 J)) E) /\
  let K i := if Nat.eqb i 0 then 3%R else 0%R in let S i := match i with 0%nat => RtoC 0 | 1%nat => RtoC 1 | _ => Ci end in
  forall c, (c < 3)%nat -> along K S c = 0 /\ handed 3 K S c = S c /\ handed (- (3)) K S c = 0.
Proof.
  intros U e x z m. assert (P : magnetic_problem tiny chiral5 2 (tuniform e) (tuniform x) (tuniform z) (tuniform m) (0, 1)%R (1 / 2)).
  { destruct chiral5_frequency as [F0 F1]. apply (scalar_problem chiral5 (fun _ => 1%R) (fun _ => (1 / 2)%R) (fun _ => (1 / 2)%R) (fun _ => 2%R) (1 / 2) [1; 0]%nat); try assumption; try lra; try (intros; lra).
    - repeat split; cbn; repeat constructor; lra || lia.
    - cbn. lia.
    - repeat constructor; lia.
    - rewrite Rabs_pos_eq; lra. }
  split; [exact P|]. split; [exact (computed_exists _ u _ _ _ _ _ _ _ thick J _ U P)|].
  intros K S c Hc. assert (A : along K S c = 0) by (unfold along, K, S, dot3; cbn [Nat.eqb]; apply C_eq; cbn; field).
  unfold handed. rewrite A. clear A. unfold K, S, cross3. split; [reflexivity|]. destruct c as [|[|[|c]]]; [| | |lia]; cbn [Nat.eqb]; split; apply C_eq; cbn; field.
Qed.
