(** The permeability of Solutions to which permittivities are assigned. *)
From Coq Require Import Reals Lra Lia List Arith Bool.
Require Import Verif.Base Verif.Cplx Verif.CSum Verif.Field Verif.Fourier_Model Verif.Fourier_Spec Verif.Vec_Model Verif.Vec_Spec Verif.Solver_Model Verif.Solver_Spec Verif.Solver_Proofs Verif.Solver_Convergence Verif.Solver_Choice.
Require Import Verif.Derived_Model Verif.Derived_Spec Verif.Derived_Tensor Verif.Choice_Model Verif.Run_Model Verif.Run_Spec Verif.Run_Proofs Verif.Run_Epsilon Verif.Run_Magnetic Verif.Magnetic_Spec Verif.Material_Spec Verif.Form_Spec Verif.Form_Proofs.
Require Import Verif.Drift_Model Verif.Drift_Spec.
Import ListNotations.
Local Open Scope R_scope.
Local Open Scope C_scope.

Lemma plus_acts s t t' chi : acts_like s t t' -> acts_like s (tsub t (TScalar chi)) (plus_isotropic t' (fun p => - chi p)).
Proof.
  intros A F c p Hc Hp. rewrite tapply_tsub by exact Hc. rewrite (A F c p Hc Hp). destruct t' as [f|m]; cbn [plus_isotropic tapply]; [ring|].
  destruct c as [|[|[|c]]]; [| | |lia]; cbn [csum Nat.eqb]; ring.
Qed.
Lemma acts_refl s t : acts_like s t t.
Proof. intros F c p _ _. reflexivity. Qed.
Lemma bounded_step s mu chi x : acts_like s (plus_isotropic (bounded_mu mu chi x) (fun p => - chi p)) (bounded_mu mu chi (x - 1)).
Proof.
  intros F c p Hc Hp. unfold bounded_mu. destruct mu as [f|m]; cbn [plus_isotropic tapply]; rewrite RtoC_minus; [ring|].
  destruct c as [|[|[|c]]]; [| | |lia]; cbn [csum Nat.eqb]; ring.
Qed.
Lemma bounded_once s v mu m chi : mu = TMatrix m -> acts_like s (with_magnetic v mu (Some chi)) (bounded_mu mu chi 1).
Proof.
  intros -> F c p Hc Hp. cbn [with_magnetic bounded_mu plus_isotropic tapply]. destruct c as [|[|[|c]]]; [| | |lia]; unfold eye; cbn [csum Nat.eqb]; ring.
Qed.
Lemma last_source_vagree n s u k0 l : forall S S', vagree n s S S' -> vagree n s (last_source u k0 l S) (last_source u k0 l S').
Proof.
  induction l as [|a l IH]; intros S S' H; [exact H|]. cbn. apply IH. destruct a; cbn; try exact H; intros c p _ _; reflexivity.
Qed.

Section Drift.
  Variables (u : si) (g : raster) (k0 : R) (xi zeta : tensor) (chi : option sfield) (chi_mu : option sfield) (mus : nat -> tensor).
  Hypothesis Hs : solvable true g k0.
  (** The permeability before and after each assignment. *)
  Hypothesis Hmus : forall k, acts_like (rshape g) (less_magnetic chi_mu (mus k)) (mus (Datatypes.S k)).
  Let s := rshape g.

  Definition at_level (k : nat) (S : vfield) (sol : solution) : Prop := exists beta e x z m S', beta <> 0%R /\ poses (magnetic_problem g k0 beta e x z m S') sol /\
    bound_chi sol = chi /\ acts_like s x xi /\ acts_like s z zeta /\ acts_like s m (mus k) /\ vagree 3 s S' S.

  Lemma less_acts t t' : acts_like s t t' -> acts_like s (less_magnetic chi_mu t) (less_magnetic chi_mu t').
  Proof.
    intros A. unfold less_magnetic. destruct chi_mu as [c|]; [|exact A].
    intros F i p Hi Hp. rewrite !tapply_tsub by exact Hi. rewrite (A F i p Hi Hp). reflexivity.
  Qed.
  Lemma level_round k S sol r : ordinary r -> invertible s (mus k) -> at_level k S sol ->
    at_level (Datatypes.S k) (last_source u k0 (fst r) S) (round u chi_mu sol r) /\
    exists x z m S', acts_like s x xi /\ acts_like s z zeta /\ acts_like s m (mus (Datatypes.S k)) /\ vagree 3 s S' (last_source u k0 (fst r) S) /\
      operators (round u chi_mu sol r) = prepare (scaled k0 g) true true (a_alpha (snd r)) (a_beta (snd r)) (match chi with None => a_epsilon (snd r) | Some c => tsub (a_epsilon (snd r)) (TScalar c) end) x z m S'.
  Proof.
    destruct r as [l [e' m' alpha' beta']]. intros (Hl & Hm & Ha' & Hb') (nu & Hnu) (beta & e & x & z & m & S' & Hb & P & C & Ax & Az & Am & AS). cbn [fst snd a_magnetic a_alpha a_beta a_epsilon] in *. subst m'.
    destruct (poses_history u _ l _ (conj Hs Hb : well_posed (magnetic_problem g k0 beta e x z m S')) P Hl) as (alpha1 & Ha1 & Hw & Ho).
    cbn [with_p_source magnetic_problem p_grid p_vectorial p_magnetic p_k0 p_beta p_eps p_xi p_zeta p_mu p_source] in Hw, Ho.
    pose proof (inverse_acts _ _ _ _ (acts_sym _ _ _ Am) Hnu) as Hnu'.
    assert (Hc : bound_chi (history u l sol) = chi) by (rewrite history_bound; exact C).
    assert (O : operators (round u chi_mu sol (l, {| a_epsilon := e'; a_magnetic := true; a_alpha := alpha'; a_beta := beta' |})) =
      prepare (scaled k0 g) true true alpha' beta' (match chi with None => e' | Some c => tsub e' (TScalar c) end) (stored_xi (operators (history u l sol))) (stored_zeta (operators (history u l sol)))
        (less_magnetic chi_mu (stored_mu (operators (history u l sol)))) (get_source (history u l sol))).
    { unfold round, assign. cbn [fst snd operators set_prev_norm set_operators a_epsilon a_magnetic a_alpha a_beta]. rewrite Hc. f_equal; rewrite Ho; reflexivity. }
    assert (Bx : acts_like s (stored_xi (operators (history u l sol))) xi).
    { apply acts_trans with x; [|exact Ax]. rewrite Ho, prepare_precondition by assumption. intros F. apply (rm_stored_xi s _ alpha1 beta _ x z m nu); assumption. }
    assert (Bz : acts_like s (stored_zeta (operators (history u l sol))) zeta).
    { apply acts_trans with z; [|exact Az]. rewrite Ho, prepare_precondition by assumption. intros F. apply (rm_stored_zeta s _ alpha1 beta _ x z m nu); assumption. }
    assert (Bm : acts_like s (less_magnetic chi_mu (stored_mu (operators (history u l sol)))) (mus (Datatypes.S k))).
    { apply acts_trans with (less_magnetic chi_mu (mus k)); [|apply Hmus]. apply less_acts. apply acts_trans with m; [|exact Am].
      rewrite Ho, prepare_precondition by assumption. intros F. apply (rm_stored_mu s _ alpha1 beta _ x z m nu); assumption. }
    assert (BS : vagree 3 s (get_source (history u l sol)) (last_source u k0 l S)).
    { intros c p Hcc Hp. unfold get_source. rewrite Ho, source_prepare by assumption. apply (last_source_vagree 3 s u k0 l S' S AS c p Hcc Hp). }
    split.
    - exists beta', (match chi with None => e' | Some c => tsub e' (TScalar c) end), (stored_xi (operators (history u l sol))), (stored_zeta (operators (history u l sol))),
        (less_magnetic chi_mu (stored_mu (operators (history u l sol)))), (get_source (history u l sol)).
      refine (conj Hb' (conj _ (conj _ (conj Bx (conj Bz (conj Bm BS)))))).
      + exists alpha'. split; [exact Ha'|]. split; [exact Hw|]. rewrite O. reflexivity.
      + exact Hc.
    - eexists _, _, _, _. refine (conj Bx (conj Bz (conj Bm (conj BS O)))).
  Qed.
  Lemma level_rounds l : forall k S sol, List.Forall ordinary l -> (forall j, (j < length l)%nat -> invertible s (mus (k + j))) -> at_level k S sol ->
    at_level (k + length l) (sources u k0 l S) (rounds u chi_mu l sol).
  Proof.
    induction l as [|r l IH]; intros k S sol Hl Hi A; cbn [length rounds sources fold_left]; [rewrite Nat.add_0_r; exact A|].
    inversion Hl as [|? ? Hr Hl']; subst. replace (k + Datatypes.S (length l))%nat with (Datatypes.S k + length l)%nat by lia.
    apply IH; [exact Hl'| |apply level_round; [exact Hr| |exact A]].
    - intros j Hj. replace (Datatypes.S k + j)%nat with (k + Datatypes.S j)%nat by lia. apply Hi. cbn. lia.
    - specialize (Hi 0%nat). rewrite Nat.add_0_r in Hi. apply Hi. cbn. lia.
  Qed.
  Lemma level_start alpha beta e mu S E : snd alpha <> 0%R -> beta <> 0%R -> acts_like s mu (mus 0) ->
    at_level 0 S (construct g true true k0 alpha beta e xi zeta mu S chi E).
  Proof.
    intros Ha Hb A. exists beta, (with_bound e chi), xi, zeta, mu, S. refine (conj Hb (conj (rm_poses g k0 alpha beta e xi zeta mu S chi E Ha) (conj eq_refl (conj (acts_refl _ _) (conj (acts_refl _ _) (conj A _)))))).
    intros c p _ _. reflexivity.
  Qed.
  Lemma level_problem l r alpha beta e mu S E F i : snd alpha <> 0%R -> beta <> 0%R -> acts_like s mu (mus 0) -> List.Forall ordinary (l ++ [r]) ->
    (forall k, (k <= Datatypes.S (length l))%nat -> invertible s (mus k)) ->
    vagree 3 s (Nat.iter i (next_field (operators (rounds u chi_mu (l ++ [r]) (construct g true true k0 alpha beta e xi zeta mu S chi E)))) F)
      (Nat.iter i (next_field (operators (construct g true true k0 (a_alpha (snd r)) (a_beta (snd r)) (less (a_epsilon (snd r)) chi) xi zeta (mus (Datatypes.S (length l))) (sources u k0 (l ++ [r]) S) None E))) F).
  Proof.
    intros Ha Hb A Hl Hi. apply Forall_app in Hl. destruct Hl as [Hl Hr]. inversion Hr as [|? ? Hr' _]; subst.
    assert (L : at_level (length l) (sources u k0 l S) (rounds u chi_mu l (construct g true true k0 alpha beta e xi zeta mu S chi E))).
    { apply (level_rounds l 0); [exact Hl| |exact (level_start alpha beta e mu S E Ha Hb A)]. intros j Hj. apply Hi. cbn. lia. }
    destruct (level_round _ _ _ r Hr' (Hi _ (Nat.le_succ_diag_r _)) L) as [_ (x & z & m & S' & Ax & Az & Am & AS & O)].
    unfold rounds, sources. rewrite !fold_left_app. cbn [fold_left]. fold (rounds u chi_mu l (construct g true true k0 alpha beta e xi zeta mu S chi E)) (sources u k0 l S). rewrite O.
    destruct Hr' as (_ & _ & Ha' & Hb'). destruct (Hi (Datatypes.S (length l)) (le_n _)) as (nu & Hnu).
    cbn [construct operators]. change {| rshape := rshape g; rstep := map (Rmult k0) (rstep g) |} with (scaled k0 g). rewrite !prepare_precondition by assumption.
    unfold s. change (rshape g) with (rshape (scaled k0 g)). apply (rm_precondition (scaled k0 g) _ _ _ _ xi _ zeta _ _ _ nu); try assumption.
    - apply (si_ndim true g k0 Hs). reflexivity.
    - intros F0. destruct chi as [c|]; [apply (plus_acts _ _ _ _ (acts_refl _ _))|apply acts_refl].
  Qed.
End Drift.

(** Without Magnetic bound. *)
Lemma drift_none u g k0 xi zeta chi l r alpha beta e mu S E F i : solvable true g k0 -> snd alpha <> 0%R -> beta <> 0%R -> List.Forall ordinary (l ++ [r]) -> invertible (rshape g) mu ->
  vagree 3 (rshape g) (Nat.iter i (next_field (operators (rounds u None (l ++ [r]) (bounded g true true k0 alpha beta e xi zeta mu S chi None E)))) F)
    (Nat.iter i (next_field (operators (bounded g true true k0 (a_alpha (snd r)) (a_beta (snd r)) (less (a_epsilon (snd r)) chi) xi zeta mu (sources u k0 (l ++ [r]) S) None None E))) F).
Proof.
  intros Hs Ha Hb Hl Hi. exact (level_problem u g k0 xi zeta chi None (fun _ => mu) Hs (fun _ => acts_refl _ _) l r alpha beta e mu S E F i Ha Hb (acts_refl _ _) Hl (fun _ _ => Hi)).
Qed.
(** With it. *)
Lemma drift_each u g k0 xi zeta chi chi_mu l r alpha beta e m S E F i : solvable true g k0 -> snd alpha <> 0%R -> beta <> 0%R -> List.Forall ordinary (l ++ [r]) ->
  (forall k, (k <= Datatypes.S (length l))%nat -> invertible (rshape g) (bounded_mu (TMatrix m) chi_mu (1 - INR k))) ->
  vagree 3 (rshape g) (Nat.iter i (next_field (operators (rounds u (Some chi_mu) (l ++ [r]) (bounded g true true k0 alpha beta e xi zeta (TMatrix m) S chi (Some chi_mu) E)))) F)
    (Nat.iter i (next_field (operators (bounded g true true k0 (a_alpha (snd r)) (a_beta (snd r)) (less (a_epsilon (snd r)) chi) xi zeta
      (bounded_mu (TMatrix m) chi_mu (- INR (length l))) (sources u k0 (l ++ [r]) S) None None E))) F).
Proof.
  intros Hs Ha Hb Hl Hi.
  replace (- INR (length l))%R with (1 - INR (Datatypes.S (length l)))%R by (rewrite S_INR; ring).
  apply (level_problem u g k0 xi zeta chi (Some chi_mu) (fun k => bounded_mu (TMatrix m) chi_mu (1 - INR k)) Hs); try assumption.
  - intros k. cbn [less_magnetic]. apply acts_trans with (plus_isotropic (bounded_mu (TMatrix m) chi_mu (1 - INR k)) (fun p => - chi_mu p)); [apply plus_acts, acts_refl|].
    replace (1 - INR (Datatypes.S k))%R with (1 - INR k - 1)%R by (rewrite S_INR; ring). apply bounded_step.
  - replace (1 - INR 0)%R with 1%R by (cbn; ring). apply (bounded_once _ true _ m). reflexivity.
Qed.
(** The second assignment turns an absorbing boundary into an amplifying one. *)
Lemma drift_gain s e m chi_mu p : inside s p -> (snd (m 0%nat 0%nat p) < snd (chi_mu p))%R -> ~ dissipates s e tzero tzero (bounded_mu (TMatrix m) chi_mu (- INR 1)) 0.
Proof.
  intros Hp Hg D. specialize (D p (fun _ => 0) (fun i => if Nat.eqb i 0 then 1 else 0) Hp). cbv zeta in D.
  unfold bounded_mu, tzero, plus_isotropic in D. destruct e as [f|n]; cbn in D; lra.
Qed.
