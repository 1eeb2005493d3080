(** Proofs for periodic boundaries in double precision: C190. *)
From Coq Require Import ZArith Reals Lia Lra List Bool.
From Flocq Require Import Core.Core IEEE754.BinarySingleNaN.
From Verif Require Import Base Num Grid_Model Bound_Model Float_Model Float_Spec Float_Basics Float_Proofs Bound64_Spec Bound64_Proofs.
Local Open Scope R_scope.

Lemma periodic_everywhere64 (g : grid BN) : upright64 g -> exists b within outside, periodic_bound BN g = Ok b /\ between BN b = Ok within /\ beyond BN b = Ok outside /\
  forall p, inside64 g p -> within p = true /\ outside p = false.
Proof.
  intros U. set (b := {| b_grid := g; thickness := fun _ _ => nofZ BN 0; kappa_function := fun _ _ x => nmul BN (nofZ BN 0) x |}).
  assert (moderate (nofZ BN 0) /\ 0 <= val (nofZ BN 0)) as Z by (split; [split; [exact zero_fin|left; exact zero_val]|rewrite zero_val; lra]).
  assert (exists w, between BN b = Ok w /\ forall p, inside64 g p -> w p = true) as (w & E & W).
  { destruct (between64 b (fun _ _ => nofZ BN 0) U ltac:(reflexivity) (fun _ _ _ _ => Z) (fun _ _ _ _ => Z)) as (w & E & W). exists w. split; [exact E|]. intros p Hp. apply (W p Hp). intros a s Ha Hs.
    apply (no_thickness b (fun _ _ => nofZ BN 0) U ltac:(reflexivity) (fun _ _ _ _ => Z) (fun _ _ _ _ => Z)); [exact Ha|exact Hs| |exact zero_val]. specialize (Hp a Ha). unfold npts. cbn [b_grid b]. lia. }
  eexists. exists w, (fun p => negb (w p)). split; [reflexivity|]. split; [exact E|]. split; [unfold beyond; change (between BN _) with (between BN b); rewrite E; reflexivity|].
  intros p Hp. rewrite (W p Hp). split; reflexivity.
Qed.
