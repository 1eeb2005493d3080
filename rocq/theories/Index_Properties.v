(** The refractive index of a Solution: C158. *)
From Coq Require Import Reals Lra Lia List Arith ZArith Bool.
Require Import Verif.Base Verif.Cplx Verif.CSum Verif.Field Verif.Vec_Model Verif.Vec_Spec Verif.Solver_Model Verif.Solver_Spec Verif.Derived_Model Verif.Derived_Spec Verif.Run_Model Verif.Run_Spec.
Require Import Verif.Index_Model Verif.Index_Spec Verif.Index_Proofs.
Import ListNotations.
Local Open Scope R_scope.
Local Open Scope C_scope.

(** C158.  Without bound, after any history that does not assign the material, assigning a refractive index that is a number or a diagonal matrix at each
    point, poses the problem that the constructor would for the permittivity that belongs to it. *)
Theorem index_assign_partial : forall u g v k0 (alpha : C) beta eps n (m : C) S E l (alpha' : C) beta',
  solvable v g k0 -> snd alpha <> 0%R -> snd alpha' <> 0%R -> beta <> 0%R -> m <> 0 -> List.Forall keeps_material l -> diagonal n ->
  let s := history u l (construct g v false k0 alpha beta eps tzero tzero (tuniform m) S None E) in
  exists e, index_of n e /\ operators (set_index s n false alpha' beta') =
    operators (construct g v false k0 alpha' beta' e tzero tzero (tuniform m) (last_source u k0 l S) None E).
Proof. exact index_assign. Qed.
Print Assumptions index_assign_partial.

(** C158.  For a birefringent crystal of which the axis is not along an axis of the coordinates, the problem is that for another permittivity. *)
Theorem index_matrix_refuted : forall u g v k0 (alpha : C) beta eps a b (m : C) S E l (alpha' : C) beta',
  solvable v g k0 -> snd alpha <> 0%R -> snd alpha' <> 0%R -> beta <> 0%R -> m <> 0 -> List.Forall keeps_material l -> (0 < a)%R -> (0 < b)%R -> a <> b ->
  let s := history u l (construct g v false k0 alpha beta eps tzero tzero (tuniform m) S None E) in
  exists e, ~ index_of (crystal a b) e /\ operators (set_index s (crystal a b) false alpha' beta') =
    operators (construct g v false k0 alpha' beta' e tzero tzero (tuniform m) (last_source u k0 l S) None E).
Proof. exact index_crystal. Qed.
Print Assumptions index_matrix_refuted.

(** C158.  A negative refractive index is not distinguished from the positive one, while the constructor does (C107). *)
Theorem index_sign_refuted : forall s n magnetic alpha beta, set_index s (elementwise Copp n) magnetic alpha beta = set_index s n magnetic alpha beta.
Proof. exact index_sign. Qed.
Print Assumptions index_sign_refuted.

(** C158.  What reading the refractive index gives: a root of the square of the given one minus alpha beta (C19). *)
Theorem index_read_partial : forall u g v k0 (alpha : C) beta n h S chi E l, solvable v g k0 -> snd alpha <> 0%R -> beta <> 0%R -> List.Forall keeps_material l ->
  let s := history u l (construct g v false k0 alpha beta (TScalar (fun p => n p * n p)) tzero tzero (TScalar h) S chi E) in
  exists (alpha' : C) r, snd alpha' <> 0%R /\ get_index s = TScalar r /\
    forall p, r p * r p = n p * n p - alpha' * RtoC beta /\ (0 <= fst (r p))%R.
Proof. exact index_read. Qed.
Print Assumptions index_read_partial.
(** So that it is not what was given at any point. *)
Theorem index_read_refuted : forall u g v k0 (alpha : C) beta n h S chi E l, solvable v g k0 -> snd alpha <> 0%R -> beta <> 0%R -> List.Forall keeps_material l ->
  let s := history u l (construct g v false k0 alpha beta (TScalar (fun p => n p * n p)) tzero tzero (TScalar h) S chi E) in
  exists r, get_index s = TScalar r /\ forall p, r p <> n p.
Proof. exact index_read_wrong. Qed.
Print Assumptions index_read_refuted.

(** The crystal has the refractive index a for the polarization along (1, 1, 0), and b for (1, -1, 0) and (0, 0, 1). *)
Example crystal_indices : forall a b (E : list nat -> C) (p : list nat),
  (forall c, (c < 3)%nat -> tapply (crystal a b) (fun c p => match c with 0%nat | 1%nat => E p | _ => 0 end) c p = RtoC a * match c with 0%nat | 1%nat => E p | _ => 0 end) /\
  (forall c, (c < 3)%nat -> tapply (crystal a b) (fun c p => match c with 0%nat => E p | 1%nat => - E p | _ => 0 end) c p = RtoC b * match c with 0%nat => E p | 1%nat => - E p | _ => 0 end) /\
  (forall c, (c < 3)%nat -> tapply (crystal a b) (fun c p => match c with 2%nat => E p | _ => 0 end) c p = RtoC b * match c with 2%nat => E p | _ => 0 end).
Proof. exact crystal_along. Qed.
(** A history on a grid of 3 x 4 points, and glass of which the refractive index varies from point to point. *)
Example index_hypotheses : let g := {| rshape := [3; 4]%nat; rstep := [1; 2]%R |} in
  solvable true g 2 /\ List.Forall keeps_material [ONext true; OReadResidue; OSetE (fun _ _ => 1); ONext false] /\ diagonal (TScalar (fun p => (1 + INR (hd 0%nat p), 1)%R)) /\
  diagonal (TMatrix (fun i j p => eye i j * RtoC (1 + INR i))).
Proof.
  intros g. refine (conj _ (conj _ (conj I _))).
  - unfold solvable, g. cbn. refine (conj _ (conj _ _)); [|lra|intros _; lia]. unfold proper. cbn. repeat split; try lia; repeat constructor; lia || lra.
  - repeat constructor.
  - intros i j p H. unfold eye. rewrite (proj2 (Nat.eqb_neq i j) H). ring.
Qed.
