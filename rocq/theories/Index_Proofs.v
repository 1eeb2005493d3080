(** Reading and assigning the refractive index. *)
From Coq Require Import Reals Lra Lia List Arith ZArith Bool.
Require Import Verif.Base Verif.Cplx Verif.CSum Verif.Field Verif.Fourier_Model Verif.Fourier_Spec Verif.Fourier_Proofs.
Require Import Verif.Vec_Model Verif.Vec_Spec Verif.Vec_Proofs Verif.Solver_Model Verif.Solver_Spec Verif.Solver_Proofs Verif.Solver_Convergence Verif.Solver_Choice.
Require Import Verif.Derived_Model Verif.Derived_Spec Verif.Derived_Tensor Verif.Run_Model Verif.Run_Spec Verif.Run_Proofs Verif.Run_Solve Verif.Run_Epsilon Verif.Run_Glue Verif.Index_Model Verif.Index_Spec.
Import ListNotations.
Local Open Scope R_scope.
Local Open Scope C_scope.

(** The crystal is what it is said to be. *)
Lemma crystal_along a b (E : list nat -> C) (p : list nat) : 
  (forall c, (c < 3)%nat -> tapply (crystal a b) (fun c p => match c with 0%nat | 1%nat => E p | _ => 0 end) c p = RtoC a * match c with 0%nat | 1%nat => E p | _ => 0 end) /\
  (forall c, (c < 3)%nat -> tapply (crystal a b) (fun c p => match c with 0%nat => E p | 1%nat => - E p | _ => 0 end) c p = RtoC b * match c with 0%nat => E p | 1%nat => - E p | _ => 0 end) /\
  (forall c, (c < 3)%nat -> tapply (crystal a b) (fun c p => match c with 2%nat => E p | _ => 0 end) c p = RtoC b * match c with 2%nat => E p | _ => 0 end).
Proof.
  assert (RtoC ((a + b) / 2) = (RtoC a + RtoC b) / RtoC 2) as E1 by (rewrite RtoC_div, RtoC_plus by lra; reflexivity).
  assert (RtoC ((a - b) / 2) = (RtoC a - RtoC b) / RtoC 2) as E2 by (rewrite RtoC_div, RtoC_minus by lra; reflexivity).
  assert (RtoC 2 = 1 + 1) as E3 by (rewrite <- RtoC_plus; f_equal; ring).
  assert (1 + 1 <> RtoC 0) as H2 by (rewrite <- E3; intros E0; apply RtoC_inj in E0; lra).
  refine (conj _ (conj _ _)); intros [|[|[|c]]] Hc; try lia; cbn -[Cdiv RtoC Cplus Cmult Cminus Copp Rdiv Rplus Rminus].
  all: rewrite ?E1, ?E2, ?E3; first [ring|field; exact H2].
Qed.

Lemma index_scalar f : index_of (TScalar f) (TScalar (fun p => f p * f p)).
Proof. intros F c p _. cbn [tapply]. ring. Qed.
Lemma index_diagonal n : diagonal n -> index_of n (elementwise (fun x => x * x) n).
Proof.
  destruct n as [f|m]; intros H F c p Hc; [cbn [tapply elementwise]; ring|].
  destruct c as [|[|[|c]]]; try lia; cbn -[Cplus Cmult RtoC]; rewrite ?(H 0 1)%nat, ?(H 0 2)%nat, ?(H 1 0)%nat, ?(H 1 2)%nat, ?(H 2 0)%nat, ?(H 2 1)%nat by discriminate; ring.
Qed.
Lemma index_assign u g v k0 (alpha : C) beta eps n (m : C) S E l (alpha' : C) beta' :
  solvable v g k0 -> snd alpha <> 0%R -> snd alpha' <> 0%R -> beta <> 0%R -> m <> 0 -> List.Forall keeps_material l -> diagonal n ->
  let s := history u l (construct g v false k0 alpha beta eps tzero tzero (tuniform m) S None E) in
  exists e, index_of n e /\ operators (set_index s n false alpha' beta') =
    operators (construct g v false k0 alpha' beta' e tzero tzero (tuniform m) (last_source u k0 l S) None E).
Proof.
  intros Hs Ha Ha' Hb Hm Hl Hn s. exists (elementwise (fun x => x * x) n). split; [apply index_diagonal; exact Hn|]. unfold set_index.
  exact (set_epsilon_as_construct u g v k0 alpha beta eps _ m S E l alpha' beta' Hs Ha Ha' Hb Hm Hl).
Qed.
Lemma index_crystal u g v k0 (alpha : C) beta eps a b (m : C) S E l (alpha' : C) beta' :
  solvable v g k0 -> snd alpha <> 0%R -> snd alpha' <> 0%R -> beta <> 0%R -> m <> 0 -> List.Forall keeps_material l -> (0 < a)%R -> (0 < b)%R -> a <> b ->
  let s := history u l (construct g v false k0 alpha beta eps tzero tzero (tuniform m) S None E) in
  exists e, ~ index_of (crystal a b) e /\ operators (set_index s (crystal a b) false alpha' beta') =
    operators (construct g v false k0 alpha' beta' e tzero tzero (tuniform m) (last_source u k0 l S) None E).
Proof.
  intros Hs Ha Ha' Hb Hm Hl H1 H2 Hab s. exists (elementwise (fun x => x * x) (crystal a b)). split.
  - intros H. specialize (H (fun c _ => match c with 1%nat => 1 | _ => 0 end) 0%nat [] ltac:(lia)). cbn -[Cplus Cmult RtoC] in H.
    apply (f_equal fst) in H. cbn in H. ring_simplify in H. apply Hab.
    assert ((a - b) * (a + 3 * b) = 0)%R as H0 by lra. apply Rmult_integral in H0. lra.
  - exact (set_epsilon_as_construct u g v k0 alpha beta eps _ m S E l alpha' beta' Hs Ha Ha' Hb Hm Hl).
Qed.
Lemma index_sign s n magnetic alpha beta : set_index s (elementwise Copp n) magnetic alpha beta = set_index s n magnetic alpha beta.
Proof.
  unfold set_index. f_equal. destruct n as [f|m]; cbn [elementwise]; f_equal.
  - apply FunctionalExtensionality.functional_extensionality. intros p. ring.
  - apply FunctionalExtensionality.functional_extensionality. intros i. apply FunctionalExtensionality.functional_extensionality. intros j.
    apply FunctionalExtensionality.functional_extensionality. intros p. ring.
Qed.
Lemma get_epsilon_scalar g (v : bool) k0 beta f h S (alpha : C) s : snd alpha <> 0%R -> beta <> 0%R ->
  prepared (nonmagnetic_problem g v k0 beta (TScalar f) (TScalar h) S) alpha s -> exists r, get_epsilon s = TScalar r.
Proof.
  intros Ha Hb (Hw & Ho). unfold get_epsilon. rewrite Ho. cbn [p_grid p_vectorial p_magnetic p_k0 p_beta p_eps p_xi p_zeta p_mu p_source nonmagnetic_problem].
  rewrite prepare_precondition by assumption. cbn -[im Cdiv RtoC Cplus Cmult Cminus Copp]. destruct (bound_chi s); eexists; reflexivity.
Qed.
Lemma index_read u g v k0 (alpha : C) beta n h S chi E l : solvable v g k0 -> snd alpha <> 0%R -> beta <> 0%R -> List.Forall keeps_material l ->
  let s := history u l (construct g v false k0 alpha beta (TScalar (fun p => n p * n p)) tzero tzero (TScalar h) S chi E) in
  exists (alpha' : C) r, snd alpha' <> 0%R /\ get_index s = TScalar r /\
    forall p, r p * r p = n p * n p - alpha' * RtoC beta /\ (0 <= fst (r p))%R.
Proof.
  intros Hs Ha Hb Hl s. set (s0 := construct _ _ _ _ _ _ _ _ _ _ _ _ _) in *.
  destruct (poses_history u _ l s0 (conj Hs Hb : well_posed (nonmagnetic_problem g v k0 beta (with_bound (TScalar (fun p => n p * n p)) chi) (TScalar h) S))
              (construct_poses g v k0 alpha beta _ (TScalar h) S chi E Ha) Hl) as (alpha' & Ha' & Hp).
  exists alpha'. assert (exists f, with_bound (TScalar (fun p => n p * n p)) chi = TScalar f) as (f & Ef) by (destruct chi; eexists; reflexivity).
  assert (exists r, get_epsilon s = TScalar r) as (r & Er).
  { rewrite Ef in Hp. exact (get_epsilon_scalar g v k0 beta f h _ alpha' s Ha' Hb Hp). }
  exists (fun p => csqrt (r p)). split; [exact Ha'|]. unfold get_index. rewrite Er. split; [reflexivity|]. intros p. rewrite csqrt_sq. split; [|apply csqrt_Re].
  pose proof (get_epsilon_is g v k0 beta (with_bound (TScalar (fun p => n p * n p)) chi) (TScalar h) _ alpha' s (fun _ _ => 1) 0%nat p Ha' Hb ltac:(destruct v; lia) Hp) as HE.
  rewrite Er in HE. cbn [tapply] in HE. assert (r p = r p * 1) as -> by ring. rewrite HE. unfold s. rewrite history_bound. unfold s0. cbn [bound_chi construct].
  destruct chi as [x|]; cbn [with_bound]; [rewrite tapply_tplus by lia|]; cbn [tapply]; ring.
Qed.
Lemma index_read_wrong u g v k0 (alpha : C) beta n h S chi E l : solvable v g k0 -> snd alpha <> 0%R -> beta <> 0%R -> List.Forall keeps_material l ->
  let s := history u l (construct g v false k0 alpha beta (TScalar (fun p => n p * n p)) tzero tzero (TScalar h) S chi E) in
  exists r, get_index s = TScalar r /\ forall p, r p <> n p.
Proof.
  intros Hs Ha Hb Hl s. destruct (index_read u g v k0 alpha beta n h S chi E l Hs Ha Hb Hl) as (alpha' & r & Ha' & Er & Hr). exists r. split; [exact Er|].
  intros p Ep. destruct (Hr p) as (H & _). rewrite Ep in H.
  assert (alpha' * RtoC beta = 0) as H0 by (transitivity (n p * n p - (n p * n p - alpha' * RtoC beta)); [ring|rewrite <- H; ring]).
  apply (f_equal snd) in H0. cbn in H0. assert (snd alpha' * beta = 0)%R as H1 by lra. apply Rmult_integral in H1. tauto.
Qed.
