(** C179: the permeability of Solutions to which permittivities are assigned. *)
From Coq Require Import Reals Lra Lia List Arith Bool.
Require Import Verif.Base Verif.Cplx Verif.CSum Verif.Field Verif.Fourier_Model Verif.Fourier_Spec Verif.Vec_Model Verif.Vec_Spec Verif.Solver_Model Verif.Solver_Spec Verif.Solver_Choice.
Require Import Verif.Derived_Model Verif.Derived_Spec Verif.Run_Model Verif.Run_Spec Verif.Magnetic_Spec Verif.Material_Spec Verif.Drift_Model Verif.Drift_Spec Verif.Drift_Proofs.
Import ListNotations.
Local Open Scope R_scope.
Local Open Scope C_scope.

(** What holds: if the bound is not Magnetic, assigning permittivities, any number of times and with any use of the Solution in between, leaves the permeability and the
    magneto-electric coupling as they are: all the following iterates are those of a new Solution with these, the last source, and the last permittivity less that of the bound.
    Missing: Magnetic bounds, for which it is false. *)
Theorem drift_none_partial : forall u g k0 xi zeta chi l r alpha beta e mu S E F i, solvable true g k0 -> snd alpha <> 0%R -> beta <> 0%R -> Forall ordinary (l ++ [r]) -> invertible (rshape g) mu ->
  vagree 3 (rshape g) (Nat.iter i (next_field (operators (rounds u None (l ++ [r]) (bounded g true true k0 alpha beta e xi zeta mu S chi None E)))) F)
    (Nat.iter i (next_field (operators (bounded g true true k0 (a_alpha (snd r)) (a_beta (snd r)) (less (a_epsilon (snd r)) chi) xi zeta mu (sources u k0 (l ++ [r]) S) None None E))) F).
Proof. exact drift_none. Qed.
Print Assumptions drift_none_partial.
(** Every assignment subtracts the susceptibility of a Magnetic bound from the permeability: the first takes the boundary away, and after n more the permeability is less by n times it. *)
Theorem drift_each_refuted : forall u g k0 xi zeta chi chi_mu l r alpha beta e m S E F i, solvable true g k0 -> snd alpha <> 0%R -> beta <> 0%R -> Forall ordinary (l ++ [r]) ->
  (forall k, (k <= Datatypes.S (length l))%nat -> invertible (rshape g) (bounded_mu (TMatrix m) chi_mu (1 - INR k))) ->
  vagree 3 (rshape g) (Nat.iter i (next_field (operators (rounds u (Some chi_mu) (l ++ [r]) (bounded g true true k0 alpha beta e xi zeta (TMatrix m) S chi (Some chi_mu) E)))) F)
    (Nat.iter i (next_field (operators (bounded g true true k0 (a_alpha (snd r)) (a_beta (snd r)) (less (a_epsilon (snd r)) chi) xi zeta
      (bounded_mu (TMatrix m) chi_mu (- INR (length l))) (sources u k0 (l ++ [r]) S) None None E))) F).
Proof. exact drift_each. Qed.
Print Assumptions drift_each_refuted.
(** The medium after the second assignment amplifies wherever the boundary absorbs more than the medium. *)
Theorem drift_gain_refuted : forall s e m chi_mu p, inside s p -> (snd (m 0%nat 0%nat p) < snd (chi_mu p))%R -> ~ dissipates s e tzero tzero (bounded_mu (TMatrix m) chi_mu (- INR 1)) 0.
Proof. exact drift_gain. Qed.
Print Assumptions drift_gain_refuted.

(** Vacuum with a boundary that absorbs magnetically, to which three permittivities are assigned while it is used. *)
Example drift_hypotheses : let g := {| rshape := [3; 4]%nat; rstep := [1; 2]%R |} in let m i j (p : list nat) := if Nat.eqb i j then RtoC 1 else RtoC 0 in let chi_mu (p : list nat) := (0, INR (hd 0%nat p))%R in
  let a e := {| a_epsilon := TScalar (fun _ => e); a_magnetic := true; a_alpha := (1, 1)%R; a_beta := 1 |} in
  let l := [([ONext true; ONext false], a (RtoC 2)); ([OSetJ (fun _ _ => 1)], a (2, 1)%R)] in
  solvable true g 2 /\ Forall ordinary (l ++ [([ONext true], a (3, 0)%R)]) /\ (forall k, (k <= Datatypes.S (length l))%nat -> invertible (rshape g) (bounded_mu (TMatrix m) chi_mu (1 - INR k))) /\
  exists p, inside (rshape g) p /\ (snd (m 0%nat 0%nat p) < snd (chi_mu p))%R.
Proof.
  intros g m chi_mu a l. refine (conj _ (conj _ (conj _ _))).
  - unfold solvable, g. cbn. refine (conj _ (conj _ _)); [|lra|intros _; lia]. unfold proper. cbn. repeat split; try lia; repeat constructor; lia || lra.
  - unfold l. cbn [app]. repeat constructor; cbn; lra.
  - intros k _. exists (TScalar (fun p => / (1, (1 - INR k) * INR (hd 0%nat p))%R)).
    assert (N : forall p, RtoC 1 + RtoC (1 - INR k) * chi_mu p = (1, (1 - INR k) * INR (hd 0%nat p))%R) by (intros p; unfold chi_mu; apply injective_projections; cbn; ring).
    assert (Z : forall p, (1, (1 - INR k) * INR (hd 0%nat p))%R <> RtoC 0) by (intros p X; apply (f_equal fst) in X; cbn in X; lra).
    intros F. split; intros c p Hc Hp; cbn [bounded_mu plus_isotropic tapply]; (destruct c as [|[|[|c]]]; [| | |lia]); unfold m; cbn [csum Nat.eqb]; rewrite N; field; apply Z.
  - exists [1; 0]%nat. split; [repeat constructor; lia|]. unfold m, chi_mu. cbn. lra.
Qed.
