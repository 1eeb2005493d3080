(** C168: the forms in which magnetic and chiral materials can be given. *)
From Coq Require Import Reals Lra Lia List Arith Bool.
Require Import Verif.Base Verif.Cplx Verif.CSum Verif.Field Verif.Fourier_Model Verif.Fourier_Spec Verif.Vec_Model Verif.Vec_Spec Verif.Display_Model Verif.Modes_Model.
Require Import Verif.Solver_Model Verif.Solver_Spec Verif.Choice_Model Verif.Choice_Proofs Verif.Derived_Model Verif.Derived_Spec Verif.Magnetic_Spec Verif.Symmetry_Spec Verif.Maxwell_Spec Verif.Maxwell_Proofs.
Require Import Verif.Solver_Choice Verif.Maxwell_Properties Verif.Form_Spec Verif.Form_Proofs.
Import ListNotations.
Local Open Scope R_scope.
Local Open Scope C_scope.

(** Numbers, multiples of the identity matrix, or any other tensors that make the same of every field: the solution is the same. *)
Theorem magnetic_forms : forall eps u g k0 epsilon xi zeta mu epsilon' xi' zeta' mu' settled settled' thick thick' loss J E, physical u -> dissipative_problem eps g k0 epsilon xi zeta mu loss ->
  let s := rshape g in taken_as_magnetic eps g k0 xi zeta mu settled -> taken_as_magnetic eps g k0 xi' zeta' mu' settled' ->
  acts_like s epsilon epsilon' -> acts_like s xi xi' -> acts_like s zeta zeta' -> acts_like s mu mu' ->
  computes 3 s k0 (construct eps g k0 true epsilon xi zeta mu settled thick (driving u k0 J)) E <->
  computes 3 s k0 (construct eps g k0 true epsilon' xi' zeta' mu' settled' thick' (driving u k0 J)) E.
Proof. exact forms_proof. Qed.
Print Assumptions magnetic_forms.
(** A uniform permeability m that is given as a matrix is treated as magnetic by the code, yet the solution is that for the number m, which is not. *)
Theorem magnetic_or_not : forall eps u g k0 epsilon m loss epsilon' xi zeta mu settled settled' thick thick' J E, physical u -> (0 < k0)%R -> lossy_problem eps g k0 true epsilon m loss ->
  let s := rshape g in taken_as_magnetic eps g k0 xi zeta mu settled' ->
  acts_like s epsilon epsilon' -> acts_like s tzero xi -> acts_like s tzero zeta -> acts_like s (tuniform (RtoC m)) mu ->
  computes 3 s k0 (construct eps g k0 true epsilon tzero tzero (tuniform (RtoC m)) settled thick (driving u k0 J)) E <->
  computes 3 s k0 (construct eps g k0 true epsilon' xi zeta mu settled' thick' (driving u k0 J)) E.
Proof. exact branches_proof. Qed.
Print Assumptions magnetic_or_not.
(** The multiple of the identity matrix. *)
Definition diagonal (f : list nat -> C) : tensor := TMatrix (fun i j p => if Nat.eqb i j then f p else 0).
Lemma diagonal_acts s f : acts_like s (TScalar f) (diagonal f).
Proof. intros F c p Hc _. unfold diagonal. cbn [tapply csum]. destruct c as [|[|[|c]]]; [| | |lia]; cbn [Nat.eqb]; ring. Qed.
Lemma diagonal_magnetic g f x z p0 : inside (rshape g) p0 -> (1 / 10 <= Cmod (first (rshape g) (diagonal f)))%R -> is_magnetic (rshape g) x z (diagonal f) = true.
Proof.
  intros I N. unfold is_magnetic. apply negb_true_iff, andb_false_iff. right. unfold allclose, all_over. apply negb_false_iff, any_over_spec. exists p0. split; [exact I|]. apply negb_true_iff. cbn [elements diagonal].
  set (a := first (rshape g) (diagonal f)) in *. assert (Q : close 0 a = false).
  { unfold close, Rleb. destruct (Rle_dec _ _) as [H|H]; [exfalso|reflexivity]. replace (0 - a) with (- a) in H by ring. rewrite Cmod_opp in H. lra. }
  apply not_true_iff_false. intros X. rewrite forallb_forall in X. rewrite (X 0) in Q; [discriminate|]. cbn. right. left. reflexivity.
Qed.
(** A chiral medium in both forms, and vacuum with a matrix for its permeability in a lossy dielectric. *)
Example forms_hypotheses : let e := TScalar (fun _ => (2, 1)%R) in dissipative_problem tiny chiral5 2 e chiral_xi chiral_zeta lossy_mu (1 / 2) /\ taken_as_magnetic tiny chiral5 2 chiral_xi chiral_zeta lossy_mu (0, 1)%R /\
  (exists xi' zeta' mu', taken_as_magnetic tiny chiral5 2 (TMatrix xi') (TMatrix zeta') (TMatrix mu') (0, 1)%R /\ acts_like (rshape chiral5) chiral_xi (TMatrix xi') /\ acts_like (rshape chiral5) chiral_zeta (TMatrix zeta') /\ acts_like (rshape chiral5) lossy_mu (TMatrix mu')) /\
  lossy_problem tiny chiral5 2 true e 1 (1 / 2) /\ taken_as_magnetic tiny chiral5 2 tzero tzero (diagonal (fun _ => RtoC 1)) (0, 1)%R /\ acts_like (rshape chiral5) (tuniform (RtoC 1)) (diagonal (fun _ => RtoC 1)).
Proof.
  intros e. destruct (chiral_problem (fun _ => 2%R)) as (H1 & H2 & H3 & H4 & H5 & H6 & H7 & H8 & H9).
  assert (I : inside (rshape chiral5) [0; 0]%nat) by (repeat constructor; lia).
  assert (D : forall x z f, (1 / 10 <= Cmod (f [0; 0]%nat))%R -> taken_as_magnetic tiny chiral5 2 x z (diagonal f) (0, 1)%R).
  { intros x z f N. split; [|exact H7]. apply (diagonal_magnetic chiral5 f x z [0; 0]%nat I). exact N. }
  split; [exact (conj H1 (conj H2 (conj H3 (conj H4 (conj H5 (conj H8 (absorbs_dissipates _ _ _ _ _ _ (Rlt_le _ _ H8) H9)))))))|]. split; [exact (conj H6 H7)|]. split; [|split; [|split]].
  - exists (fun i j p => if Nat.eqb i j then (0, twist p)%R else RtoC 0), (fun i j p => if Nat.eqb i j then (0, - twist p)%R else RtoC 0), (fun i j p => if Nat.eqb i j then (1, (INR (hd 0%nat p) + 1) / 2)%R else RtoC 0).
    split; [|split; [|split]; apply diagonal_acts]. apply (D _ _ (fun p => (1, (INR (hd 0%nat p) + 1) / 2)%R)). pose proof (Cmod_Re_le (1, (INR (hd 0%nat [0; 0]%nat) + 1) / 2)%R) as Q. cbn [fst] in Q. rewrite Rabs_pos_eq in Q by lra. lra.
  - assert (S : sqrt tiny = (1 / 1000000 * (1 / 1000000))%R) by (unfold tiny; apply sqrt_square; lra).
    split; [exact H1|]. split; [exact H2|]. split; [lra|]. split; [rewrite S; lra|]. split; [exact H3|]. split; [exact Logic.I|]. split; [lra|]. apply absorbs_scalar. intros p _. cbn. lra.
  - apply D. rewrite Cmod_1. lra.
  - apply diagonal_acts.
Qed.
