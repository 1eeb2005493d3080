(** Proofs about reading and assigning the permittivity of a magnetic Solution. *)
From Coq Require Import Reals Lra Lia List Arith ZArith Bool.
Require Import Verif.Base Verif.Cplx Verif.CSum Verif.Field Verif.Fourier_Model Verif.Fourier_Spec Verif.Fourier_Proofs.
Require Import Verif.Vec_Model Verif.Vec_Spec Verif.Vec_Proofs Verif.Solver_Model Verif.Solver_Spec Verif.Solver_Proofs Verif.Solver_Convergence Verif.Solver_Choice.
Require Import Verif.Derived_Model Verif.Derived_Spec Verif.Derived_Tensor Verif.Run_Model Verif.Run_Spec Verif.Run_Proofs Verif.Run_Solve Verif.Run_Epsilon.
Import ListNotations.
Local Open Scope R_scope.
Local Open Scope C_scope.

Lemma im_cneq (alpha : C) : snd alpha <> 0%R -> im alpha <> 0.
Proof. apply im_neq. Qed.
Ltac nz := repeat split; auto using Ci_neq, im_cneq with cneq.

Section Recovered.
  Variables (s : list nat) (gk : raster) (alpha : C) (beta : R) (eps xi zeta mu nu : tensor) (S : vfield).
  Hypothesis Ha : snd alpha <> 0%R.
  Hypothesis Hb : beta <> 0%R.
  Hypothesis Hnu : inverse_of s mu nu.
  Let o := precondition gk true true alpha beta eps xi zeta mu S.
  Lemma rm_chiEH F : vagree 3 s (tapply (tscale (im alpha * RtoC beta / Ci) (o_chiEH o)) F) (fun c p => - Ci * tapply xi (tapply nu F) c p).
  Proof.
    intros c p Hc Hp. unfold o. cbn [o_chiEH precondition]. rewrite !tapply_tscale, tapply_tmul, (tapply_ext3 s xi _ _ (tinv_inverse s mu nu F Hnu) c p Hc Hp). field. nz.
  Qed.
  Lemma rm_chiHE F : vagree 3 s (tapply (tscale (im alpha * RtoC beta / Ci) (o_chiHE o)) F) (fun c p => Ci * tapply nu (tapply zeta F) c p).
  Proof.
    intros c p Hc Hp. unfold o. cbn [o_chiHE precondition]. rewrite !tapply_tscale, tapply_tmul, (tinv_inverse s mu nu _ Hnu c p Hc Hp). field. nz.
  Qed.
  Let inner := tscale (RtoC beta) (tsub (TScalar (fun _ => 1)) (tscale (im alpha / Ci) (o_chiHH o))).
  Lemma rm_inner F : vagree 3 s (tapply inner F) (tapply nu F).
  Proof.
    intros c p Hc Hp. unfold inner, o. cbn [o_chiHH precondition]. rewrite tapply_tscale, tapply_tsub by exact Hc. rewrite !tapply_tscale, tapply_tsub by exact Hc.
    rewrite tapply_tscale, (tinv_inverse s mu nu F Hnu c p Hc Hp). cbn [tapply]. field. nz.
  Qed.
  Lemma rm_inverse : inverse_of s inner mu.
  Proof.
    intros F. split.
    - apply vagree_trans with (tapply nu (tapply mu F)); [apply rm_inner|apply (proj2 (Hnu F))].
    - apply vagree_trans with (tapply mu (tapply nu F)); [apply tapply_ext3, rm_inner|apply (proj1 (Hnu F))].
  Qed.
  Lemma rm_mu F : vagree 3 s (tapply (tinv inner) F) (tapply mu F).
  Proof. apply tinv_inverse, rm_inverse. Qed.
  Lemma rm_stored_mu F : vagree 3 s (tapply (stored_mu o) F) (tapply mu F).
  Proof. exact (rm_mu F). Qed.
  Lemma rm_stored_xi F : vagree 3 s (tapply (stored_xi o) F) (tapply xi F).
  Proof.
    intros c p Hc Hp. unfold stored_xi. change (o_magnetic o) with true. cbv beta iota. change (o_alpha o) with alpha. change (o_beta o) with beta.
    rewrite tapply_tscale, tapply_tmul, (tapply_ext3 s _ _ _ (rm_stored_mu F) c p Hc Hp), rm_chiEH by assumption.
    rewrite (tapply_ext3 s xi _ _ (proj2 (Hnu F)) c p Hc Hp). transitivity (- (Ci * Ci) * tapply xi F c p); [ring|]. rewrite Ci_sq. ring.
  Qed.
  Lemma rm_stored_zeta F : vagree 3 s (tapply (stored_zeta o) F) (tapply zeta F).
  Proof.
    intros c p Hc Hp. unfold stored_zeta. change (o_magnetic o) with true. cbv beta iota. change (o_alpha o) with alpha. change (o_beta o) with beta.
    rewrite tapply_tscale, tapply_tmul, (rm_stored_mu _ c p Hc Hp), (tapply_ext3 s _ _ _ (rm_chiHE F) c p Hc Hp), tapply_scal.
    rewrite (proj1 (Hnu (tapply zeta F)) c p Hc Hp). transitivity (- (Ci * Ci) * tapply zeta F c p); [ring|]. rewrite Ci_sq. ring.
  Qed.
  Lemma rm_delta F : vagree 3 s (tapply (tmul xi (tscale (- Ci) (tscale Ci (tmul (tinv mu) zeta)))) F) (tapply xi (tapply nu (tapply zeta F))).
  Proof.
    intros c p Hc Hp. rewrite tapply_tmul. apply tapply_ext3 with (s := s); try assumption. intros c' p' Hc' Hp'.
    rewrite !tapply_tscale, tapply_tmul, (tinv_inverse s mu nu _ Hnu c' p' Hc' Hp'). transitivity (- (Ci * Ci) * tapply nu (tapply zeta F) c' p'); [ring|]. rewrite Ci_sq. ring.
  Qed.
  Lemma rm_chiEE F : vagree 3 s (tapply (tscale (im alpha * RtoC beta / Ci) (o_chiEE o)) F)
    (fun c p => tapply eps F c p - tapply xi (tapply nu (tapply zeta F)) c p - alpha * RtoC beta * F c p).
  Proof.
    intros c p Hc Hp. unfold o. cbn [o_chiEE precondition]. rewrite tapply_tscale, (tapply_tshift 3) by (exact Hc || lia). rewrite tapply_tscale, tapply_tsub by exact Hc.
    rewrite rm_delta by assumption. field. nz.
  Qed.
  (** The product that the getter adds. *)
  Definition rm_added : tensor := tmul (tscale Ci (tmul (tscale (im alpha * RtoC beta / Ci) (o_chiEH o)) (tinv inner))) (tscale (- Ci) (tscale (im alpha * RtoC beta / Ci) (o_chiHE o))).
  Lemma rm_added_is F : vagree 3 s (tapply rm_added F) (tapply xi (tapply nu (tapply zeta F))).
  Proof.
    intros c p Hc Hp. unfold rm_added. rewrite tapply_tmul.
    rewrite (rm_stored_xi _ c p Hc Hp : tapply (tscale Ci (tmul (tscale (im alpha * RtoC beta / Ci) (o_chiEH o)) (tinv inner))) _ c p = _).
    apply tapply_ext3 with (s := s); try assumption. intros c' p' Hc' Hp'. rewrite tapply_tscale, rm_chiHE by assumption.
    transitivity (- (Ci * Ci) * tapply nu (tapply zeta F) c' p'); [ring|]. rewrite Ci_sq. ring.
  Qed.
  Lemma rm_tadd a b F c p : (match a, b with TScalar _, TMatrix _ | TMatrix _, TScalar _ => False | _, _ => True end) -> tapply (tadd a b) F c p = tapply a F c p + tapply b F c p.
  Proof. destruct a as [f|m], b as [h|n]; intros H; try contradiction; cbn [tadd tapply]; [ring|]. rewrite <- csum_plus. apply csum_ext. intros; ring. Qed.
End Recovered.

Definition magnetic_problem (g : raster) (k0 beta : R) (eps xi zeta mu : tensor) (S : vfield) : problem :=
  {| p_grid := g; p_vectorial := true; p_magnetic := true; p_k0 := k0; p_beta := beta; p_eps := eps; p_xi := xi; p_zeta := zeta; p_mu := mu; p_source := S |}.
Lemma rm_poses g k0 (alpha : C) beta eps xi zeta mu S chi E : snd alpha <> 0%R ->
  poses (magnetic_problem g k0 beta (with_bound eps chi) xi zeta mu S) (construct g true true k0 alpha beta eps xi zeta mu S chi E).
Proof. intros Ha. exists alpha. split; [exact Ha|]. split; reflexivity. Qed.
Lemma rm_history u g k0 (alpha : C) beta eps xi zeta mu S chi E l : solvable true g k0 -> snd alpha <> 0%R -> beta <> 0%R -> Forall keeps_material l ->
  let s := history u l (construct g true true k0 alpha beta eps xi zeta mu S chi E) in
  bound_chi s = chi /\ exists alpha' : C, snd alpha' <> 0%R /\ operators s = precondition (scaled k0 g) true true alpha' beta (with_bound eps chi) xi zeta mu (last_source u k0 l S).
Proof.
  intros Hs Ha Hb Hl s. split; [unfold s; rewrite history_bound; reflexivity|].
  destruct (poses_history u _ l _ (conj Hs Hb : well_posed (magnetic_problem g k0 beta (with_bound eps chi) xi zeta mu S))
              (rm_poses g k0 alpha beta eps xi zeta mu S chi E Ha) Hl) as (alpha' & Ha' & Hw & Ho).
  exists alpha'. split; [exact Ha'|]. unfold s. rewrite Ho. cbn [with_p_source magnetic_problem p_grid p_vectorial p_magnetic p_k0 p_beta p_eps p_xi p_zeta p_mu p_source].
  apply prepare_precondition; assumption.
Qed.

Lemma rm_getter s : o_magnetic (operators s) = true -> get_epsilon s =
  let o := operators s in let t := tadd (tscale (im (o_alpha o) * RtoC (o_beta o) / Ci) (o_chiEE o))
    (tmul (tscale Ci (tmul (tscale (im (o_alpha o) * RtoC (o_beta o) / Ci) (o_chiEH o)) (tinv (tscale (RtoC (o_beta o)) (tsub (TScalar (fun _ => 1)) (tscale (im (o_alpha o) / Ci) (o_chiHH o)))))))
      (tscale (- Ci) (tscale (im (o_alpha o) * RtoC (o_beta o) / Ci) (o_chiHE o)))) in
  match bound_chi s with None => t | Some chi => tsub t (TScalar chi) end.
Proof. intros H. unfold get_epsilon. rewrite H. reflexivity. Qed.

Lemma rm_read u g k0 (alpha : C) beta eps xi zeta mu nu S chi E l : solvable true g k0 -> snd alpha <> 0%R -> beta <> 0%R -> inverse_of (rshape g) mu nu -> same_kind eps xi zeta mu -> Forall keeps_material l ->
  let s := history u l (construct g true true k0 alpha beta eps xi zeta mu S chi E) in
  exists alpha' : C, snd alpha' <> 0%R /\
    forall (F : vfield) c p, (c < 3)%nat -> inside (rshape g) p -> tapply (get_epsilon s) F c p = tapply eps F c p - alpha' * RtoC beta * F c p.
Proof.
  intros Hs Ha Hb Hnu Hk Hl s. destruct (rm_history u g k0 alpha beta eps xi zeta mu S chi E l Hs Ha Hb Hl) as (Hc & alpha' & Ha' & Ho). fold s in Hc, Ho.
  exists alpha'. split; [exact Ha'|]. intros F c p Hcc Hp. rewrite rm_getter by (rewrite Ho; reflexivity). rewrite Ho, Hc. cbv zeta.
  set (o := precondition _ _ _ _ _ _ _ _ _ _). change (o_alpha o) with alpha'. change (o_beta o) with beta.
  set (t := tadd _ _). assert (tapply t F c p = tapply (with_bound eps chi) F c p - alpha' * RtoC beta * F c p) as E1.
  { unfold t. rewrite rm_tadd.
    - unfold o. rewrite (rm_chiEE (rshape g) (scaled k0 g) alpha' beta (with_bound eps chi) xi zeta mu nu _ Ha' Hb Hnu F c p Hcc Hp).
      change (tmul _ _) with (rm_added (scaled k0 g) alpha' beta (with_bound eps chi) xi zeta mu (last_source u k0 l S)).
      rewrite (rm_added_is (rshape g) (scaled k0 g) alpha' beta _ xi zeta mu nu _ Ha' Hb Hnu F c p Hcc Hp). ring.
    - unfold o. destruct eps, xi, zeta, mu, chi; try contradiction Hk; exact I. }
  destruct chi as [x|]; cbn [with_bound] in E1; [rewrite tapply_tsub by exact Hcc; rewrite E1, tapply_tplus by exact Hcc; cbn [tapply]; ring|exact E1].
Qed.
Lemma rm_read_wrong u g k0 (alpha : C) beta eps xi zeta mu nu S chi E l : solvable true g k0 -> snd alpha <> 0%R -> beta <> 0%R -> inverse_of (rshape g) mu nu -> same_kind eps xi zeta mu -> Forall keeps_material l ->
  let s := history u l (construct g true true k0 alpha beta eps xi zeta mu S chi E) in
  forall (F : vfield) c p, (c < 3)%nat -> inside (rshape g) p -> F c p <> 0 -> tapply (get_epsilon s) F c p <> tapply eps F c p.
Proof.
  intros Hs Ha Hb Hnu Hk Hl s F c p Hc Hp HF EQ. destruct (rm_read u g k0 alpha beta eps xi zeta mu nu S chi E l Hs Ha Hb Hnu Hk Hl) as (alpha' & Ha' & HE).
  unfold s in EQ. rewrite (HE F c p Hc Hp) in EQ.
  assert (alpha' * RtoC beta * F c p = 0) as Hz.
  { transitivity (tapply eps F c p - (tapply eps F c p - alpha' * RtoC beta * F c p)); [ring|]. rewrite EQ. ring. }
  assert (alpha' <> 0) by (apply alpha_neq; exact Ha'). assert (RtoC beta <> 0) by auto with cneq.
  apply HF. transitivity (/ (alpha' * RtoC beta) * (alpha' * RtoC beta * F c p)); [field; split; assumption|]. rewrite Hz. ring.
Qed.
(** A matrix permittivity with numbers for the other tensors. *)
Lemma rm_read_spread u g k0 (alpha : C) beta (e : nat -> nat -> sfield) (x z m : sfield) S E l : solvable true g k0 -> snd alpha <> 0%R -> beta <> 0%R -> (forall p, inside (rshape g) p -> m p <> 0) -> Forall keeps_material l ->
  let s := history u l (construct g true true k0 alpha beta (TMatrix e) (TScalar x) (TScalar z) (TScalar m) S None E) in
  exists r, get_epsilon s = TMatrix r /\ forall i j p, i <> j -> inside (rshape g) p -> r i j p = e i j p + x p * z p / m p.
Proof.
  intros Hs Ha Hb Hm Hl s. destruct (rm_history u g k0 alpha beta (TMatrix e) (TScalar x) (TScalar z) (TScalar m) S None E l Hs Ha Hb Hl) as (Hc & alpha' & Ha' & Ho). fold s in Hc, Ho.
  rewrite rm_getter by (rewrite Ho; reflexivity). rewrite Ho, Hc. cbv zeta. cbn [with_bound]. cbn -[Ci RtoC Cinv Cdiv im eye].
  eexists. split; [reflexivity|]. intros i j p Hij Hp. cbn beta. specialize (Hm p Hp). assert (eye i j = 0) as -> by (unfold eye; destruct (Nat.eqb_spec i j); [contradiction|reflexivity]).
  pose proof Ci_neq. pose proof (im_cneq alpha' Ha'). assert (RtoC beta <> 0) by auto with cneq.
  assert (Q : Ci * Ci = - (1)) by (rewrite Ci_sq; ring).
  transitivity (e i j p + (- (Ci * Ci) * - (Ci * Ci)) * (x p * z p / m p)); [|rewrite Q; field; exact Hm].
  field. repeat split; try assumption. intros Z. change (R1, R0) with (RtoC 1) in Z. assert (Z' : RtoC 1 = RtoC 0) by (transitivity (RtoC beta * m p - (RtoC beta * m p - RtoC 1)); [ring|exact Z]). apply (f_equal fst) in Z'. cbn in Z'. lra.
Qed.

(** ** Assigning the permittivity *)
Section Equivalent.
  Variables (g : raster) (o o' : ops).
  Hypothesis Hn : (rndim g <= 3)%nat.
  Hypothesis Hg : o_grid o = g /\ o_grid o' = g.
  Hypothesis Hv : o_vectorial o = true /\ o_vectorial o' = true.
  Hypothesis Hm : o_magnetic o = true /\ o_magnetic o' = true.
  Hypothesis Halpha : o_alpha o' = o_alpha o.
  Hypothesis HEE : forall F, vagree 3 (rshape g) (tapply (o_chiEE o') F) (tapply (o_chiEE o) F).
  Hypothesis HEH : forall F, vagree 3 (rshape g) (tapply (o_chiEH o') F) (tapply (o_chiEH o) F).
  Hypothesis HHE : forall F, vagree 3 (rshape g) (tapply (o_chiHE o') F) (tapply (o_chiHE o) F).
  Hypothesis HHH : forall F, vagree 3 (rshape g) (tapply (o_chiHH o') F) (tapply (o_chiHH o) F).
  Hypothesis HS : vagree 3 (rshape g) (o_source o') (o_source o).
  Lemma eq_curl F G : vagree 3 (rshape g) F G -> vagree 3 (rshape g) (curl g 3 F) (curl g 3 G).
  Proof. intros H. apply (curl_vagree g); assumption. Qed.
  Lemma eq_chi F G : vagree 3 (rshape g) F G -> vagree 3 (rshape g) (chi_op o' F) (chi_op o G).
  Proof.
    intros H. pose proof (eq_curl F G H) as D. destruct Hm as [M M'], Hg as [G1 G2], Hv as [V V']. intros c p Hc Hp. unfold chi_op, vector_length. rewrite M, M', G1, G2, V, V'. cbv beta iota zeta.
    rewrite (HEE F c p Hc Hp), (tapply_ext3 _ _ F G H c p Hc Hp), (HHE _ c p Hc Hp), (tapply_ext3 _ _ _ _ D c p Hc Hp). f_equal. apply eq_curl; [|exact Hc|exact Hp].
    intros c' p' Hc' Hp'. rewrite (HEH F c' p' Hc' Hp'), (tapply_ext3 _ _ F G H c' p' Hc' Hp'), (HHH _ c' p' Hc' Hp'), (tapply_ext3 _ _ _ _ D c' p' Hc' Hp'). reflexivity.
  Qed.
  Lemma eq_green F G : vagree 3 (rshape g) F G -> vagree 3 (rshape g) (green_op o' F) (green_op o G).
  Proof.
    intros H. assert (E : forall F, green_op o' F = green_op o F).
    { intros F0. unfold green_op, g_ft_op, g_scalar. destruct Hg as [G1 G2], Hv as [V V']. rewrite G1, G2, V, V', Halpha. reflexivity. }
    rewrite E. unfold green_op. rewrite (proj1 Hg). apply (convolve_vagree (rshape g) 3 (g_ft_op o) F G); [|exact H].
    rewrite <- (proj1 Hg). apply (g_pointwise o 3). intros _. split; [reflexivity|rewrite (proj1 Hg); exact Hn] || (rewrite (proj1 Hg); exact Hn).
  Qed.
  Lemma eq_next F G : vagree 3 (rshape g) F G -> vagree 3 (rshape g) (next_field o' F) (next_field o G).
  Proof.
    intros H c p Hc Hp. unfold next_field. rewrite (H c p Hc Hp). f_equal. unfold update. cbv zeta. apply eq_chi; try assumption. intros c' p' Hc' Hp'. rewrite (H c' p' Hc' Hp'). f_equal.
    apply eq_green; try assumption. intros c2 p2 Hc2 Hp2. rewrite (eq_chi F G H c2 p2 Hc2 Hp2), (HS c2 p2 Hc2 Hp2). reflexivity.
  Qed.
  Lemma eq_iter F i : vagree 3 (rshape g) (Nat.iter i (next_field o') F) (Nat.iter i (next_field o) F).
  Proof. induction i as [|i IH]; [intros c p _ _; reflexivity|]. exact (eq_next _ _ IH). Qed.
End Equivalent.

Lemma rm_equal_inverse s mu mu' nu : inverse_of s mu nu -> (forall F, vagree 3 s (tapply mu' F) (tapply mu F)) -> inverse_of s mu' nu.
Proof.
  intros H E F. split; [apply vagree_trans with (tapply mu (tapply nu F)); [apply E|apply (proj1 (H F))]|].
  apply vagree_trans with (tapply nu (tapply mu F)); [apply tapply_ext3, E|apply (proj2 (H F))].
Qed.
Lemma rm_precondition g (alpha : C) beta eps eps' xi xi' zeta zeta' mu mu' nu S S' F i : (rndim g <= 3)%nat -> snd alpha <> 0%R -> beta <> 0%R -> inverse_of (rshape g) mu nu ->
  (forall F, vagree 3 (rshape g) (tapply eps' F) (tapply eps F)) -> (forall F, vagree 3 (rshape g) (tapply xi' F) (tapply xi F)) ->
  (forall F, vagree 3 (rshape g) (tapply zeta' F) (tapply zeta F)) -> (forall F, vagree 3 (rshape g) (tapply mu' F) (tapply mu F)) -> vagree 3 (rshape g) S' S ->
  vagree 3 (rshape g) (Nat.iter i (next_field (precondition g true true alpha beta eps' xi' zeta' mu' S')) F) (Nat.iter i (next_field (precondition g true true alpha beta eps xi zeta mu S)) F).
Proof.
  intros Hn Ha Hb Hnu He Hx Hz Hmu HS. pose proof (rm_equal_inverse _ _ mu' _ Hnu Hmu) as Hnu'. set (s := rshape g) in *.
  assert (Hi : forall F, vagree 3 s (tapply (tinv mu') F) (tapply (tinv mu) F)).
  { intros F0. apply vagree_trans with (tapply nu F0); [apply tinv_inverse; exact Hnu'|apply vagree_sym, tinv_inverse; exact Hnu]. }
  assert (HX : forall F, vagree 3 s (tapply (tmul xi' (tscale (- Ci) (tscale Ci (tmul (tinv mu') zeta')))) F) (tapply (tmul xi (tscale (- Ci) (tscale Ci (tmul (tinv mu) zeta)))) F)).
  { intros F0 c p Hc Hp. rewrite !tapply_tmul, (Hx _ c p Hc Hp). apply tapply_ext3 with (s := s); try assumption. intros c' p' Hc' Hp'. rewrite !tapply_tscale, !tapply_tmul, (Hi _ c' p' Hc' Hp').
    rewrite (tapply_ext3 s (tinv mu) _ _ (Hz F0) c' p' Hc' Hp'). reflexivity. }
  apply (eq_iter g); try (split; reflexivity); try reflexivity; try exact Hn.
  - intros F0 c p Hc Hp. cbn [o_chiEE precondition]. rewrite !(tapply_tshift 3) by (exact Hc || lia). rewrite !tapply_tscale, !tapply_tsub by exact Hc. rewrite (He F0 c p Hc Hp), (HX F0 c p Hc Hp). reflexivity.
  - intros F0 c p Hc Hp. cbn [o_chiEH precondition]. rewrite !tapply_tscale, !tapply_tmul, (Hx _ c p Hc Hp), (tapply_ext3 s xi _ _ (Hi F0) c p Hc Hp). reflexivity.
  - intros F0 c p Hc Hp. cbn [o_chiHE precondition]. rewrite !tapply_tscale, !tapply_tmul, (Hi _ c p Hc Hp), (tapply_ext3 s (tinv mu) _ _ (Hz F0) c p Hc Hp). reflexivity.
  - intros F0 c p Hc Hp. cbn [o_chiHH precondition]. rewrite !tapply_tscale, !tapply_tsub by exact Hc. rewrite !tapply_tscale, (Hi F0 c p Hc Hp). reflexivity.
  - intros c p Hc Hp. cbn [o_source precondition]. rewrite (HS c p Hc Hp). reflexivity.
Qed.
Lemma rm_assign u g k0 (alpha : C) beta eps eps' xi zeta mu nu S chi E l (alpha' : C) beta' F i : solvable true g k0 -> snd alpha <> 0%R -> snd alpha' <> 0%R -> beta <> 0%R -> beta' <> 0%R -> inverse_of (rshape g) mu nu -> Forall keeps_material l ->
  let s := history u l (construct g true true k0 alpha beta eps xi zeta mu S chi E) in
  let assigned := match chi with None => eps' | Some x => tsub eps' (TScalar x) end in
  vagree 3 (rshape g) (Nat.iter i (next_field (operators (set_epsilon s eps' true alpha' beta'))) F)
    (Nat.iter i (next_field (operators (construct g true true k0 alpha' beta' assigned xi zeta mu (last_source u k0 l S) None E))) F).
Proof.
  intros Hs Ha Ha' Hb Hb' Hnu Hl s assigned. destruct (rm_history u g k0 alpha beta eps xi zeta mu S chi E l Hs Ha Hb Hl) as (Hc & alpha1 & Ha1 & Ho). fold s in Hc, Ho.
  cbn [set_epsilon set_prev_norm set_operators operators construct]. unfold get_source. rewrite Hc, Ho. change (o_grid (precondition _ _ _ _ _ _ _ _ _ _)) with (scaled k0 g). change (o_vectorial (precondition _ _ _ _ _ _ _ _ _ _)) with true.
  change {| rshape := rshape g; rstep := map (Rmult k0) (rstep g) |} with (scaled k0 g). rewrite !prepare_precondition by assumption. fold assigned.
  change (rshape g) with (rshape (scaled k0 g)). change (rshape g) with (rshape (scaled k0 g)) in Hnu. 
  apply (rm_precondition (scaled k0 g) alpha' beta' assigned assigned xi _ zeta _ mu _ nu); try assumption.
  - apply (si_ndim true g k0 Hs). reflexivity.
  - intros F0 c p _ _. reflexivity.
  - intros F0. apply (rm_stored_xi _ _ alpha1 beta _ xi zeta mu nu); assumption.
  - intros F0. apply (rm_stored_zeta _ _ alpha1 beta _ xi zeta mu nu); assumption.
  - intros F0. apply (rm_stored_mu _ _ alpha1 beta _ xi zeta mu nu); assumption.
  - intros c p _ _. rewrite <- (prepare_precondition) by assumption. apply source_prepare; assumption.
Qed.

Lemma rm_read_general s g (alpha : C) beta eps xi zeta mu nu S (F : vfield) c p : snd alpha <> 0%R -> beta <> 0%R -> inverse_of (rshape g) mu nu -> same_kind eps xi zeta mu ->
  operators s = precondition g true true alpha beta eps xi zeta mu S -> (c < 3)%nat -> inside (rshape g) p ->
  tapply (get_epsilon s) F c p = tapply eps F c p - alpha * RtoC beta * F c p - (match bound_chi s with None => 0 | Some x => x p end) * F c p.
Proof.
  intros Ha Hb Hnu Hk Ho Hcc Hp. rewrite rm_getter by (rewrite Ho; reflexivity). rewrite Ho. cbv zeta.
  set (o := precondition _ _ _ _ _ _ _ _ _ _). change (o_alpha o) with alpha. change (o_beta o) with beta.
  set (t := tadd _ _). assert (tapply t F c p = tapply eps F c p - alpha * RtoC beta * F c p) as E1.
  { unfold t. rewrite rm_tadd.
    - unfold o. rewrite (rm_chiEE (rshape g) g alpha beta eps xi zeta mu nu _ Ha Hb Hnu F c p Hcc Hp).
      change (tmul _ _) with (rm_added g alpha beta eps xi zeta mu S).
      rewrite (rm_added_is (rshape g) g alpha beta _ xi zeta mu nu _ Ha Hb Hnu F c p Hcc Hp). ring.
    - unfold o. destruct eps, xi, zeta, mu; try contradiction Hk; exact I. }
  destruct (bound_chi s) as [x|]; [rewrite tapply_tsub by exact Hcc; rewrite E1; cbn [tapply]; ring|rewrite E1; ring].
Qed.
Lemma rm_assign_read u g k0 (alpha : C) beta eps eps' xi zeta mu nu S chi E l (alpha' : C) beta' : solvable true g k0 -> snd alpha <> 0%R -> snd alpha' <> 0%R -> beta <> 0%R -> beta' <> 0%R -> inverse_of (rshape g) mu nu ->
  same_kind eps' xi zeta mu -> Forall keeps_material l ->
  let s := history u l (construct g true true k0 alpha beta eps xi zeta mu S chi E) in
  forall (F : vfield) c p, (c < 3)%nat -> inside (rshape g) p ->
  tapply (get_epsilon (set_epsilon s eps' true alpha' beta')) F c p =
    tapply eps' F c p - alpha' * RtoC beta' * F c p - RtoC 2 * (match chi with None => 0 | Some x => x p end) * F c p.
Proof.
  intros Hs Ha Ha' Hb Hb' Hnu Hk Hl s F c p Hcc Hp. destruct (rm_history u g k0 alpha beta eps xi zeta mu S chi E l Hs Ha Hb Hl) as (Hc & alpha1 & Ha1 & Ho). fold s in Hc, Ho.
  set (o := operators s). set (e := match chi with None => eps' | Some x => tsub eps' (TScalar x) end).
  assert (O : operators (set_epsilon s eps' true alpha' beta') = precondition (scaled k0 g) true true alpha' beta' e (stored_xi o) (stored_zeta o) (stored_mu o) (get_source s)).
  { cbn [set_epsilon set_prev_norm set_operators operators]. rewrite Hc. unfold o. rewrite Ho at 1 2. change (o_grid (precondition _ _ _ _ _ _ _ _ _ _)) with (scaled k0 g). change (o_vectorial (precondition _ _ _ _ _ _ _ _ _ _)) with true.
    rewrite prepare_precondition by assumption. reflexivity. }
  rewrite (rm_read_general _ (scaled k0 g) alpha' beta' e (stored_xi o) (stored_zeta o) (stored_mu o) nu (get_source s) F c p Ha' Hb'); try assumption.
  - change (bound_chi (set_epsilon s eps' true alpha' beta')) with (bound_chi s). rewrite Hc. unfold e. assert (RtoC 2 = 1 + 1) as -> by (rewrite <- RtoC_plus; reflexivity). destruct chi as [x|]; [rewrite tapply_tsub by exact Hcc; cbn [tapply]; ring|ring].
  - apply rm_equal_inverse with mu; [exact Hnu|]. intros F0. unfold o. rewrite Ho. apply (rm_stored_mu _ _ alpha1 beta _ xi zeta mu nu); assumption.
  - unfold e, o. rewrite Ho. destruct eps', xi, zeta, mu, chi; try contradiction Hk; exact I.
Qed.
