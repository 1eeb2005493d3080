(** Scalar problems as vector problems, and problems that do not vary along an axis. *)
From Coq Require Import Reals Lra Lia List Arith Bool FunctionalExtensionality.
Require Import Verif.Base Verif.Cplx Verif.CSum Verif.Field Verif.Fourier_Model Verif.Fourier_Spec Verif.Fourier_Proofs.
Require Import Verif.Vec_Model Verif.Vec_Spec Verif.Vec_Proofs Verif.Solver_Model Verif.Solver_Spec Verif.Solver_Proofs Verif.Solver_Choice.
Require Verif.Solver_Bounded.
Require Import Verif.Choice_Model Verif.Choice_Proofs Verif.Choice_Construct Verif.Symmetry_Spec Verif.Symmetry_Shift.
Import ListNotations.
Local Open Scope R_scope.
Local Open Scope C_scope.
Ltac ext2 := apply functional_extensionality; intros ?c; apply functional_extensionality; intros ?p.

(** ** Transverse polarization *)
Lemma ft_zero s k : ft s (fun _ => 0) k = 0.
Proof. unfold ft. rewrite (sum_over_ext s _ (fun _ => 0)) by (intros; ring). apply sum_over_zero. Qed.
Section Polarized.
  Variables (g : raster) (alpha : C) (beta : R) (e h : sfield) (S : vfield) (axis : nat).
  Hypothesis Hx : (rndim g <= axis)%nat.
  Let o := prepare g false false alpha beta (TScalar e) tzero tzero (TScalar h) S.
  Let o' := prepare g true false alpha beta (TScalar e) tzero tzero (TScalar h) (polarized axis S).
  Lemma po_vft F : vft (rshape g) (polarized axis F) = polarized axis (vft (rshape g) F).
  Proof. ext2. unfold vft, polarized. destruct (Nat.eqb c axis); [reflexivity|]. apply ft_zero. Qed.
  Lemma po_vift F : vift (rshape g) (polarized axis F) = polarized axis (vift (rshape g) F).
  Proof. ext2. unfold vift, polarized. destruct (Nat.eqb c axis); [reflexivity|]. apply ift_zero. Qed.
  Lemma po_longitudinal F c p : longitudinal_ft g (polarized axis F) c p = 0.
  Proof.
    unfold longitudinal_ft. destruct (Nat.ltb_spec c (rndim g)) as [L|L]; [|reflexivity].
    assert (Z : forall i, (i < rndim g)%nat -> polarized axis F i p = 0) by (intros i Hi; unfold polarized; destruct (Nat.eqb_spec i axis); [lia|reflexivity]).
    destruct (is_origin p); [apply Z, L|]. rewrite (csum_ext _ _ (fun _ => 0)) by (intros i Hi; rewrite (Z i Hi); ring). rewrite csum_zero. unfold Cdiv. ring.
  Qed.
  Lemma po_green F : green_op o' (polarized axis F) = polarized axis (green_op o F).
  Proof.
    unfold green_op, convolve. change (rshape (o_grid o')) with (rshape g). change (rshape (o_grid o)) with (rshape g). rewrite po_vft, <- po_vift. f_equal. ext2. unfold g_ft_op.
    change (o_vectorial o') with true. change (o_vectorial o) with false. change (o_grid o') with g. cbv iota. rewrite po_longitudinal. change (g_scalar o' p) with (g_scalar o p).
    unfold polarized. destruct (Nat.eqb c axis); ring.
  Qed.
  Lemma po_chi F : chi_op o' (polarized axis F) = polarized axis (chi_op o F).
  Proof.
    ext2. unfold chi_op. change (o_magnetic o') with false. change (o_magnetic o) with false. cbv iota. unfold o', o, prepare, update_operators, precondition. cbn [o_chiEE o_alpha tapply tscale tshift tsub tmul tinv tzero tuniform].
    unfold polarized. destruct (Nat.eqb c axis); ring.
  Qed.
  Lemma po_update F : update o' (polarized axis F) = polarized axis (update o F).
  Proof.
    unfold update. cbv zeta. rewrite <- po_chi. f_equal.
    replace (fun c p => chi_op o' (polarized axis F) c p + o_source o' c p) with (polarized axis (fun c p => chi_op o F c p + o_source o c p)).
    - rewrite po_green. ext2. unfold polarized. destruct (Nat.eqb c axis); ring.
    - ext2. rewrite po_chi. unfold o', o, prepare, update_operators, precondition. cbn [o_source o_alpha]. unfold polarized. destruct (Nat.eqb c axis); ring.
  Qed.
  Lemma po_iter F i : Nat.iter i (next_field o') (polarized axis F) = polarized axis (Nat.iter i (next_field o) F).
  Proof.
    induction i as [|i IH]; [reflexivity|].
    change (next_field o' (Nat.iter i (next_field o') (polarized axis F)) = polarized axis (next_field o (Nat.iter i (next_field o) F))). rewrite IH. unfold next_field. rewrite po_update. ext2.
    unfold polarized. destruct (Nat.eqb c axis); ring.
  Qed.
End Polarized.
Lemma polarized_proof eps g k0 e h settled kappa S axis F i : (rndim g <= axis)%nat -> is_magnetic (rshape g) tzero tzero (TScalar h) = false ->
  let o := construct eps g k0 false (TScalar e) tzero tzero (TScalar h) settled kappa S in
  let o' := construct eps g k0 true (TScalar e) tzero tzero (TScalar h) settled kappa (polarized axis S) in
  Nat.iter i (next_field o') (polarized axis F) = polarized axis (Nat.iter i (next_field o) F).
Proof.
  intros Hx Hm o o'. unfold o, o', construct. rewrite Hm. destruct (choose _ _ _ _ _ _ _ _ _ _) as [alpha beta].
  apply (po_iter {| rshape := rshape g; rstep := map (Rmult k0) (rstep g) |} alpha beta e h S axis Hx).
Qed.

(** ** No variation along the last axis *)
Lemma sum_over_app s n : forall F, sum_over (s ++ [n]) F = sum_over s (fun p => csum n (fun j => F (p ++ [j]))).
Proof. induction s as [|k s IH]; intros F; [reflexivity|]. cbn [app sum_over]. apply csum_ext. intros i _. rewrite IH. reflexivity. Qed.
Lemma inside_app s n q : inside (s ++ [n]) q -> exists p j, q = p ++ [j] /\ inside s p /\ (j < n)%nat.
Proof.
  intros H. apply Forall2_app_inv_l in H as (p & l & Hp & Hl & ->). inversion Hl as [|? j ? l' Hj Hl']; subst. inversion Hl'; subst. exists p, j. repeat split; assumption.
Qed.
Lemma app_inside s n p j : inside s p -> (j < n)%nat -> inside (s ++ [n]) (p ++ [j]).
Proof. intros Hp Hj. apply Forall2_app; [exact Hp|]. repeat constructor. exact Hj. Qed.
Lemma phase_app s n p j k b : inside s p -> inside s k -> phase (s ++ [n]) (p ++ [j]) (k ++ [b]) = (phase s p k + 2 * PI * (INR j * INR b) / INR n)%R.
Proof.
  intros Hp. revert k. induction Hp as [|m a s p Ha Hp IH]; intros k Hk; inversion Hk as [|? x ? k' Hx Hk']; subst; cbn [app phase]; [ring|]. rewrite IH by assumption. ring.
Qed.
Lemma points_app s n : points (s ++ [n]) = (points s * n)%nat.
Proof. unfold points. induction s as [|k s IH]; cbn [app fold_right]; [lia|]. rewrite IH. lia. Qed.
Lemma csum_only n k (f : nat -> C) : (k < n)%nat -> (forall i, (i < n)%nat -> i <> k -> f i = 0) -> csum n f = f k.
Proof. intros Hk H. rewrite <- (csum_delta n k f Hk). apply csum_ext. intros i Hi. destruct (Nat.eqb_spec i k); [reflexivity|]. apply H; assumption. Qed.
Lemma csum_orthogonal_0 n b : (b < n)%nat -> b <> 0%nat -> csum n (fun k => cis (2 * PI * (INR 0 * INR k) / INR n - 2 * PI * (INR b * INR k) / INR n)) = 0.
Proof. intros Hb E. rewrite (csum_orthogonal n 0 b) by lia. destruct (Nat.eqb_spec 0 b); [congruence|reflexivity]. Qed.
Lemma ft_spread s n f k b : inside s k -> (b < n)%nat -> ft (s ++ [n]) (fun q => f (removelast q)) (k ++ [b]) = if Nat.eqb b 0 then RtoC (INR n) * ft s f k else 0.
Proof.
  intros Hk Hb. unfold ft. rewrite sum_over_app.
  transitivity (sum_over s (fun p => f p * cis (- phase s p k) * csum n (fun j => cis (2 * PI * (INR j * INR 0%nat) / INR n) * Cconj (cis (2 * PI * (INR j * INR b) / INR n))))).
  - apply sum_over_ext. intros p Hp. rewrite <- csum_scal. apply csum_ext. intros j Hj. rewrite removelast_last, phase_app by assumption. rewrite Ropp_plus_distr, cis_plus, (cis_neg (2 * PI * _ / _)).
    cbn [INR]. replace (2 * PI * (INR j * 0) / INR n)%R with 0%R by (unfold Rdiv; ring). rewrite cis_0. ring.
  - rewrite sum_over_scal_r. destruct (Nat.eqb_spec b 0) as [->|E].
    + rewrite (csum_ext n _ (fun _ => 1)) by (intros j _; rewrite Cmult_comm; apply cis_unit). rewrite csum_const. ring.
    + assert (Z : csum n (fun j => cis (2 * PI * (INR j * INR 0%nat) / INR n) * Cconj (cis (2 * PI * (INR j * INR b) / INR n))) = 0).
      { rewrite <- (csum_orthogonal_0 n b Hb E). apply csum_ext. intros j _. rewrite Cmult_comm. unfold Rminus. rewrite cis_plus, cis_neg. rewrite (Rmult_comm (INR j) (INR b)), (Rmult_comm (INR j) (INR 0)). ring. }
      rewrite Z. ring.
Qed.
Lemma convolve_spread s n m op op' F : (0 < n)%nat -> pointwise s m op -> multiplies s m op -> pointwise (s ++ [n]) m op' -> multiplies (s ++ [n]) m op' ->
  (forall G c k, (c < m)%nat -> inside s k -> op' G c (k ++ [0%nat]) = op (fun d l => G d (l ++ [0%nat])) c k) ->
  forall c p j, (c < m)%nat -> inside s p -> (j < n)%nat -> convolve (s ++ [n]) op' (spread F) c (p ++ [j]) = convolve s op F c p.
Proof.
  intros Hn Hp Hm Hp' Hm' H c p j Hc Hip Hj. unfold convolve, vift, ift. rewrite points_app, mult_INR, RtoC_mult.
  assert (NZ : RtoC (INR n) <> 0) by (apply RtoC_neq; apply not_0_INR; lia).
  assert (PZ : RtoC (INR (points s)) <> 0) by (apply points_neq_0, (inside_nonempty s p Hip)).
  rewrite sum_over_app.
  rewrite (sum_over_ext s _ (fun k => RtoC (INR n) * (op (vft s F) c k * cis (phase s p k)))).
  - rewrite sum_over_scal. field. split; assumption.
  - intros k Hk. rewrite (csum_only n 0 _ Hn).
    + rewrite phase_app by assumption. cbn [INR]. replace (2 * PI * (INR j * 0) / INR n)%R with 0%R by (unfold Rdiv; ring). rewrite Rplus_0_r, (H _ c k Hc Hk).
      rewrite (Hp _ (fun d l => RtoC (INR n) * vft s F d l) k Hk); [rewrite (Hm (RtoC (INR n)) (vft s F) c k Hc Hk); ring| |exact Hc].
      intros d Hd. unfold vft, spread. rewrite (ft_spread s n (F d) k 0 Hk Hn). reflexivity.
    + intros b Hb Hb0. rewrite (Hp' _ (fun d l => 0 * vft (s ++ [n]) F d l) (k ++ [b]) (app_inside s n k b Hk Hb)); [rewrite Hm' by (try assumption; apply app_inside; assumption); ring| |exact Hc].
      intros d Hd. unfold vft, spread. rewrite (ft_spread s n (F d) k b Hk Hb). destruct (Nat.eqb_spec b 0); [contradiction|ring].
Qed.

Section Extruded.
  Variables (g : raster) (n : nat) (d : R) (v : bool) (alpha : C) (beta : R) (epsilon : tensor) (mu : C) (S : vfield).
  Hypothesis Hn : (0 < n)%nat.
  Hypothesis Hd : v = true -> (rndim g < 3)%nat.
  Hypothesis Hg : proper g.
  Hypothesis Hf : fits v epsilon.
  Let s := rshape g.
  Let m := (if v then 3 else 1)%nat.
  Let o := prepare g v false alpha beta epsilon tzero tzero (tuniform mu) S.
  Let o' := prepare (extruded g n d) v false alpha beta (spread_tensor epsilon) tzero tzero (tuniform mu) (spread S).
  Lemma ex_ndim : rndim (extruded g n d) = (rndim g + 1)%nat.
  Proof. unfold rndim, extruded. cbn [rshape]. rewrite app_length. reflexivity. Qed.
  Lemma ex_kvec i k : inside s k -> (i < rndim g)%nat -> kvec (extruded g n d) i (k ++ [0%nat]) = kvec g i k.
  Proof.
    clear Hd. intros Hk Hi. pose proof (inside_length _ _ Hk) as L. unfold s in L. unfold kvec, extruded. cbn [rshape rstep]. unfold rndim in Hi |- *. destruct Hg as (G1 & _ & _). rewrite (app_nth1 (rshape g)), (app_nth1 (rstep g)), (app_nth1 k) by lia. reflexivity.
  Qed.
  Lemma ex_kvec_last k : inside s k -> kvec (extruded g n d) (rndim g) (k ++ [0%nat]) = 0%R.
  Proof.
    clear Hd. intros Hk. pose proof (inside_length _ _ Hk) as L. unfold s in L. unfold kvec, extruded. cbn [rshape rstep]. unfold rndim.
    rewrite (app_nth2 k) by lia. rewrite L, Nat.sub_diag. cbn [nth]. unfold k_axis, k_index. destruct (Nat.ltb_spec (2 * 0) (nth (length (rshape g)) (rshape g ++ [n]) 1%nat)) as [Q|Q].
    - cbn [Z.of_nat]. unfold Rdiv. ring.
    - exfalso. rewrite app_nth2 in Q by lia. rewrite Nat.sub_diag in Q. cbn [nth] in Q. lia.
  Qed.
  Lemma ex_k2 k : inside s k -> k2 (extruded g n d) (k ++ [0%nat]) = k2 g k.
  Proof.
    intros Hk. unfold k2. rewrite ex_ndim, Nat.add_1_r. cbn [rsum]. rewrite ex_kvec_last by assumption. rewrite (rsum_ext (rndim g) _ (fun i => (kvec g i k * kvec g i k)%R)) by (intros i Hi; rewrite ex_kvec by assumption; reflexivity). ring.
  Qed.
  Lemma ex_origin k : is_origin (k ++ [0%nat]) = is_origin k.
  Proof. unfold is_origin. rewrite forallb_app. cbn. apply andb_true_r. Qed.
  Lemma ex_g G c k : (c < m)%nat -> inside s k -> g_ft_op o' G c (k ++ [0%nat]) = g_ft_op o (fun d l => G d (l ++ [0%nat])) c k.
  Proof.
    intros Hc Hk. unfold g_ft_op. change (o_vectorial o') with v. change (o_vectorial o) with v. change (o_grid o') with (extruded g n d). change (o_grid o) with g.
    assert (Q : g_scalar o' (k ++ [0%nat]) = g_scalar o k).
    { unfold g_scalar. change (o_grid o') with (extruded g n d). change (o_grid o) with g. rewrite ex_k2 by assumption. reflexivity. }
    rewrite Q. match goal with |- (if _ then ?x else _) = (if _ then ?y else _) => enough (x = y) as -> by reflexivity end. unfold longitudinal_ft. rewrite ex_ndim, ex_origin, Nat.add_1_r. cbn [csum]. rewrite ex_k2, ex_kvec_last by assumption.
    rewrite (csum_ext (rndim g) _ (fun i => RtoC (kvec g i k) * G i (k ++ [0%nat]))) by (intros i Hi; rewrite ex_kvec by assumption; reflexivity).
    rewrite (Cmult_0_l (G (rndim g) (k ++ [0%nat]))). rewrite Cplus_0_r.
    destruct (Nat.ltb_spec c (rndim g)) as [L|L].
    - destruct (Nat.ltb_spec c (Datatypes.S (rndim g))) as [L'|L']; [|lia]. rewrite ex_kvec by assumption. reflexivity.
    - destruct (Nat.ltb_spec c (Datatypes.S (rndim g))) as [L'|L']; [|reflexivity]. assert (c = rndim g) as -> by lia.
      destruct (is_origin k) eqn:Eo.
      + unfold g_scalar. change (o_grid o) with g. change (o_alpha o') with (o_alpha o). rewrite (k2_origin g k Hg Hk Eo). destruct (Ceq_dec (o_alpha o) 0) as [Z|Z].
        * rewrite Z. unfold im. cbn [snd RtoC]. unfold Cdiv. ring.
        * field. split; [exact Z|]. intros Z'. apply Z. replace (o_alpha o) with (- - o_alpha o) by ring. rewrite Z'. ring.
      + rewrite ex_kvec_last by assumption. ring.
  Qed.
  Lemma ex_pointwise : pointwise s m (g_ft_op o).
  Proof. apply (g_pointwise o m). intros e. change (o_vectorial o) with v in e. unfold m. rewrite e. change (o_grid o) with g. specialize (Hd e). lia. Qed.
  Lemma ex_pointwise' : pointwise (s ++ [n]) m (g_ft_op o').
  Proof. apply (g_pointwise o' m). intros e. change (o_vectorial o') with v in e. unfold m. rewrite e. change (o_grid o') with (extruded g n d). rewrite ex_ndim. specialize (Hd e). lia. Qed.
  Lemma vagree_spread F G : vagree m (s ++ [n]) F (spread G) <-> forall c p j, (c < m)%nat -> inside s p -> (j < n)%nat -> F c (p ++ [j]) = G c p.
  Proof.
    split.
    - intros H c p j Hc Hp Hj. rewrite (H c _ Hc (app_inside s n p j Hp Hj)). unfold spread. rewrite removelast_last. reflexivity.
    - intros H c q Hc Hq. apply inside_app in Hq as (p & j & -> & Hp & Hj). unfold spread. rewrite removelast_last. apply H; assumption.
  Qed.
  Lemma ex_green F : vagree m (s ++ [n]) (green_op o' (spread F)) (spread (green_op o F)).
  Proof. apply vagree_spread. exact (convolve_spread s n m (g_ft_op o) (g_ft_op o') F Hn ex_pointwise (g_multiplies o m) ex_pointwise' (g_multiplies o' m) ex_g). Qed.
  Lemma ex_chi F : chi_op o' (spread F) = spread (chi_op o F).
  Proof.
    ext2. unfold chi_op, o', o, prepare, update_operators, precondition. cbn [o_magnetic o_chiEE o_alpha]. destruct epsilon; reflexivity.
  Qed.
  Lemma ex_chi_vagree F G : vagree m (s ++ [n]) F G -> vagree m (s ++ [n]) (chi_op o' F) (chi_op o' G).
  Proof.
    intros H. unfold chi_op, o', prepare, update_operators, precondition. cbn [o_magnetic o_chiEE o_alpha]. apply tapply_vagree; [|exact H].
    unfold m. destruct v; [left; reflexivity|]. destruct epsilon; [right; exact I|discriminate Hf].
  Qed.
  Lemma ex_green_vagree F G : vagree m (s ++ [n]) F G -> vagree m (s ++ [n]) (green_op o' F) (green_op o' G).
  Proof. exact (convolve_vagree (s ++ [n]) m (g_ft_op o') F G ex_pointwise'). Qed.
  Lemma ex_update F F' : vagree m (s ++ [n]) F' (spread F) -> vagree m (s ++ [n]) (update o' F') (spread (update o F)).
  Proof.
    intros H. unfold update. cbv zeta.
    set (X := fun c p => chi_op o F c p + o_source o c p). set (X' := fun c p => chi_op o' F' c p + o_source o' c p). set (D := fun c p => green_op o X c p - F c p).
    assert (A : vagree m (s ++ [n]) X' (spread X)).
    { intros c p Hc Hp. unfold X', X, spread. rewrite (ex_chi_vagree F' _ H c p Hc Hp), ex_chi. reflexivity. }
    assert (B : vagree m (s ++ [n]) (fun c p => green_op o' X' c p - F' c p) (spread D)).
    { intros c p Hc Hp. rewrite (ex_green_vagree X' _ A c p Hc Hp), (ex_green X c p Hc Hp), (H c p Hc Hp). reflexivity. }
    intros c p Hc Hp. rewrite (ex_chi_vagree _ _ B c p Hc Hp), ex_chi. reflexivity.
  Qed.
  Lemma ex_iter F i : vagree m (s ++ [n]) (Nat.iter i (next_field o') (spread F)) (spread (Nat.iter i (next_field o) F)).
  Proof.
    induction i as [|i IH]; [intros c p _ _; reflexivity|]. intros c p Hc Hp.
    change (next_field o' (Nat.iter i (next_field o') (spread F)) c p = spread (next_field o (Nat.iter i (next_field o) F)) c p).
    unfold next_field at 1. rewrite (ex_update _ _ IH c p Hc Hp), (IH c p Hc Hp). reflexivity.
  Qed.
End Extruded.

(** ** The constants do not change *)
Lemma rmax_over_spread s n F : (0 < n)%nat -> rmax_over (s ++ [n]) (fun p => F (removelast p)) = rmax_over s F.
Proof.
  intros Hn. apply Rle_antisym; apply rmax_over_least; try apply Solver_Bounded.rmax_over_nonneg; intros p Hp.
  - apply inside_app in Hp as (q & j & -> & Hq & Hj). rewrite removelast_last. apply rmax_over_ge. exact Hq.
  - pose proof (rmax_over_ge (s ++ [n]) (fun p => F (removelast p)) (p ++ [0%nat]) (app_inside s n p 0 Hp Hn)) as H. cbv beta in H. rewrite removelast_last in H. exact H.
Qed.
Lemma any_over_spread s n F : (0 < n)%nat -> any_over (s ++ [n]) (fun p => F (removelast p)) = any_over s F.
Proof.
  intros Hn. apply eq_true_iff_eq. rewrite !any_over_spec. split; intros (p & Hp & H).
  - apply inside_app in Hp as (q & j & -> & Hq & Hj). rewrite removelast_last in H. exists q. split; assumption.
  - exists (p ++ [0%nat]). split; [apply app_inside; assumption|]. rewrite removelast_last. exact H.
Qed.
Section Constants.
  Variables (eps : R) (s : list nat) (n : nat).
  Hypothesis Hn : (0 < n)%nat.
  Notation sp := spread_tensor.
  Lemma sp_tsub a b : tsub (sp a) (sp b) = sp (tsub a b).
  Proof. destruct a, b; reflexivity. Qed.
  Lemma sp_tadd a b : tadd (sp a) (sp b) = sp (tadd a b).
  Proof. destruct a, b; reflexivity. Qed.
  Lemma sp_tmul a b : tmul (sp a) (sp b) = sp (tmul a b).
  Proof. destruct a, b; reflexivity. Qed.
  Lemma sp_tscale a b : tscale a (sp b) = sp (tscale a b).
  Proof. destruct b; reflexivity. Qed.
  Lemma sp_tadjoint b : tadjoint (sp b) = sp (tadjoint b).
  Proof. destruct b; reflexivity. Qed.
  Lemma sp_uniform z : TScalar (fun _ => z) = sp (TScalar (fun _ => z)).
  Proof. reflexivity. Qed.
  Lemma sp_eigenvalues t p : eigenvalues eps (sp t) p = eigenvalues eps t (removelast p).
  Proof. destruct t; reflexivity. Qed.
  Lemma sp_largest t : largest_eigenvalue eps (s ++ [n]) (sp t) = largest_eigenvalue eps s t.
  Proof. unfold largest_eigenvalue. etransitivity; [|exact (rmax_over_spread s n (fun p => fold_right Rmax 0%R (map Cmod (eigenvalues eps t p))) Hn)]. f_equal. apply functional_extensionality. intros p. rewrite sp_eigenvalues. reflexivity. Qed.
  Lemma sp_gain t : has_gain eps (s ++ [n]) (sp t) = has_gain eps s t.
  Proof.
    unfold has_gain. etransitivity; [|exact (any_over_spread s n (fun p => existsb (fun x : C => Modes_Model.Rltb (fst x) (- max_allowed_gain eps)) (eigenvalues eps (antihermitian t) p)) Hn)]. f_equal. apply functional_extensionality. intros p. unfold antihermitian.
    rewrite sp_tadjoint, sp_tsub, sp_tscale, sp_eigenvalues. reflexivity.
  Qed.
  Lemma sp_loss t : has_loss eps (s ++ [n]) (sp t) = has_loss eps s t.
  Proof. unfold has_loss. rewrite sp_tscale. apply sp_gain. Qed.
  Lemma sp_sigma e a b : sigma_EE eps (s ++ [n]) (sp e) a b = sigma_EE eps s e a b.
  Proof.
    unfold sigma_EE, delta_tensor. rewrite sp_tadjoint, !sp_tscale, sp_tadd, sp_tmul, (sp_uniform (RtoC _)), sp_tsub, sp_tadd, sp_largest. reflexivity.
  Qed.
  Lemma sp_choose step step' k0 e (mu : C) settled kappa : choose eps (s ++ [n]) step' k0 (sp e) tzero tzero (tuniform mu) settled kappa = choose eps s step k0 e tzero tzero (tuniform mu) settled kappa.
  Proof.
    unfold choose. rewrite !not_magnetic, !effective_nonmagnetic, sp_sigma. unfold transposes, some_gain, some_loss.
    change (has_gain eps (s ++ [n]) tzero) with (has_gain eps (s ++ [n]) (sp tzero)). change (has_loss eps (s ++ [n]) tzero) with (has_loss eps (s ++ [n]) (sp tzero)).
    change (has_gain eps (s ++ [n]) (tuniform mu)) with (has_gain eps (s ++ [n]) (sp (tuniform mu))). change (has_loss eps (s ++ [n]) (tuniform mu)) with (has_loss eps (s ++ [n]) (sp (tuniform mu))).
    rewrite !sp_gain, !sp_loss. reflexivity.
  Qed.
End Constants.
Lemma extruded_proof eps g n d k0 v epsilon (mu : C) settled kappa S F i : (0 < n)%nat -> proper g -> k0 <> 0%R -> (v = true -> (rndim g < 3)%nat) -> fits v epsilon ->
  let o := construct eps g k0 v epsilon tzero tzero (tuniform mu) settled kappa S in
  let o' := construct eps (extruded g n d) k0 v (spread_tensor epsilon) tzero tzero (tuniform mu) settled kappa (spread S) in
  vagree (if v then 3 else 1) (rshape g ++ [n]) (Nat.iter i (next_field o') (spread F)) (spread (Nat.iter i (next_field o) F)).
Proof.
  intros Hn Hg Hk Hd Hf o o'. unfold o, o', construct. cbn [extruded rshape rstep]. rewrite (sp_choose eps (rshape g) n Hn (rstep g)). rewrite !not_magnetic. destruct (choose _ _ _ _ _ _ _ _ _ _) as [alpha beta].
  rewrite map_app. apply (ex_iter {| rshape := rshape g; rstep := map (Rmult k0) (rstep g) |} n (k0 * d)%R v alpha beta epsilon mu S Hn Hd); [|exact Hf].
  exact (scaled_proper k0 g Hk Hg).
Qed.
