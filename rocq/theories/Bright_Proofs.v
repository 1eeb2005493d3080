(** Proofs that the amplitude of the source only changes the amplitude of the field. *)
From Coq Require Import Reals List Arith ZArith Bool Lia Lra FunctionalExtensionality.
Require Import Verif.Base Verif.Cplx Verif.CSum Verif.Field Verif.Fourier_Model Verif.Fourier_Spec Verif.Fourier_Proofs.
Require Import Verif.Vec_Model Verif.Vec_Spec Verif.Vec_Proofs Verif.Solver_Model Verif.Solver_Spec Verif.Solver_Proofs Verif.Solver_Convergence.
Require Import Verif.Symmetry_Spec Verif.Symmetry_Linear Verif.Derived_Model Verif.Run_Model Verif.Run_Spec Verif.Run_Proofs Verif.Bright_Spec.
Import ListNotations.
Local Open Scope R_scope.
Local Open Scope C_scope.

Lemma times_comb a F : times a F = combination a 0 F F.
Proof. ext2. unfold times, combination. ring. Qed.
Lemma lin_times a op : lin a 0 op -> forall F, op (times a F) = times a (op F).
Proof. intros H F. rewrite !times_comb. apply H. Qed.
Lemma br_update a o F : update (amplified_ops a o) (times a F) = times a (update o F).
Proof.
  pose proof (update_comb a 0 o (o_source o) (o_source o) F F) as H. rewrite <- !times_comb in H.
  change (Symmetry_Linear.with_source o (times a (o_source o))) with (amplified_ops a o) in H.
  replace (Symmetry_Linear.with_source o (o_source o)) with o in H by (destruct o; reflexivity). exact H.
Qed.
Lemma br_norm a o F : norm (amplified_ops a o) (times a F) = (Cmod a * norm o F)%R.
Proof.
  unfold norm. change (vector_length (amplified_ops a o)) with (vector_length o). change (o_grid (amplified_ops a o)) with (o_grid o). unfold times.
  rewrite vnorm2_scal, sqrt_mult_alt by (apply Rmult_le_pos; apply Cmod_ge_0). rewrite sqrt_square by apply Cmod_ge_0. reflexivity.
Qed.
Lemma br_same_norm a o : norm (amplified_ops a o) = norm o.
Proof. reflexivity. Qed.
Lemma br_get_E a x : get_E (amplified a x) = times a (get_E x).
Proof. ext2. unfold get_E, electric_field, times. cbn. unfold times, Cdiv. ring. Qed.
Lemma br_get_source a x : get_source (amplified a x) = times a (get_source x).
Proof. ext2. unfold get_source, source_distribution, times. cbn. unfold times, Cdiv. ring. Qed.
Lemma br_get_j u a x : get_j u (amplified a x) = times a (get_j u x).
Proof. ext2. unfold get_j, current_density, source_distribution, times. cbn. unfold times, Cdiv. ring. Qed.
Lemma br_set_E a x E : set_E (amplified a x) (times a E) = amplified a (set_E x E).
Proof. unfold set_E, set_prev_norm, set_field, amplified. cbn. f_equal. ext2. unfold times. ring. Qed.
Lemma br_set_source a x S : set_source (amplified a x) (times a S) = amplified a (set_source x S).
Proof. unfold set_source, set_prev_norm, set_operators, amplified, Run_Model.with_source, amplified_ops. cbn. do 2 f_equal. ext2. unfold times. ring. Qed.
Lemma br_set_j u a x J : set_j u (amplified a x) (times a J) = amplified a (set_j u x J).
Proof.
  unfold set_j. rewrite <- br_set_source. f_equal. ext2. unfold source_of_current, times. cbn. ring.
Qed.
Lemma br_set_epsilon a x e m al b : set_epsilon (amplified a x) e m al b = amplified a (set_epsilon x e m al b).
Proof.
  unfold set_epsilon. rewrite br_get_source. unfold set_prev_norm, set_operators, amplified. cbn. f_equal.
  unfold prepare, precondition, update_operators, amplified_ops, stored_xi, stored_zeta, stored_mu. cbn. f_equal. ext2. unfold times. ring.
Qed.
Lemma br_get_epsilon a x : get_epsilon (amplified a x) = get_epsilon x.
Proof. reflexivity. Qed.

Section Positive.
  Variable a : C.
  Hypothesis Ha : a <> RtoC 0.
  Let m := Cmod a.
  Lemma br_pos : (0 < m)%R.
  Proof. exact (proj1 (Cmod_gt_0 a) Ha). Qed.
  Lemma br_residue x : calculate_residue (amplified a x) = calculate_residue x.
  Proof.
    unfold calculate_residue. change (operators (amplified a x)) with (amplified_ops a (operators x)). change (field (amplified a x)) with (times a (field x)).
    rewrite br_norm. fold m. set (N := norm (operators x) (field x)). cbn [amplified prev_norm]. pose proof br_pos as Hm. fold m.
    assert (E : (if Req_EM_T (m * N) 0 then true else false) = (if Req_EM_T N 0 then true else false)).
    { destruct (Req_EM_T (m * N) 0) as [H|H], (Req_EM_T N 0) as [K|K]; try reflexivity; exfalso; [|apply H; rewrite K; ring]. destruct (Rmult_integral _ _ H); [lra|contradiction]. }
    destruct (prev_norm x) as [q|].
    - destruct (Rlt_dec 0 (m * q)) as [H|H], (Rlt_dec 0 q) as [K|K]; try reflexivity.
      + destruct (Req_EM_T (m * N) 0), (Req_EM_T N 0) as [K'|K']; try discriminate; [reflexivity|]. do 2 f_equal. field. split; lra.
      + exfalso. apply K. apply Rmult_lt_reg_l with m; [exact Hm|]. rewrite Rmult_0_r. exact H.
      + exfalso. apply H. apply Rmult_lt_0_compat; assumption.
    - destruct (Req_EM_T (m * N) 0), (Req_EM_T N 0); try discriminate; reflexivity.
  Qed.
  Lemma br_read x : read_residue (amplified a x) = (amplified a (fst (read_residue x)), snd (read_residue x)).
  Proof.
    unfold read_residue. change (residue_cache (amplified a x)) with (residue_cache x). rewrite br_residue.
    destruct (residue_cache x); [reflexivity|]. destruct (calculate_residue x); reflexivity.
  Qed.
  Lemma br_update_operators o b : update_operators (amplified_ops a o) b = amplified_ops a (update_operators o b).
  Proof. unfold update_operators, amplified_ops. cbn. f_equal. ext2. unfold times. ring. Qed.
  Lemma br_next f x : next f (amplified a x) = (amplified a (fst (next f x)), snd (next f x)).
  Proof.
    assert (E : forall y, next false (amplified a y) = (amplified a (fst (next false y)), snd (next false y))).
    { clear x. intros x. unfold next. cbv zeta.
      change (operators (set_residue (set_iteration (amplified a x) (iteration (amplified a x) + 1)) None)) with (amplified_ops a (operators x)).
      change (operators (set_residue (set_iteration x (iteration x + 1)) None)) with (operators x).
      change (field (set_residue (set_iteration (amplified a x) (iteration (amplified a x) + 1)) None)) with (times a (field x)).
      change (field (set_residue (set_iteration x (iteration x + 1)) None)) with (field x).
      rewrite br_update, br_norm. set (d := update (operators x) (field x)). set (N := norm (operators x) d). cbn [prev_norm set_residue set_iteration amplified].
      fold m. pose proof br_pos as Hm.
      assert (A : set_prev_norm (set_field (set_residue (set_iteration (amplified a x) (iteration (amplified a x) + 1)) None) (fun c p => times a (field x) c p + times a d c p)) (Fin (m * N)) =
        amplified a (set_prev_norm (set_field (set_residue (set_iteration x (iteration x + 1)) None) (fun c p => field x c p + d c p)) (Fin N))).
      { unfold set_prev_norm, set_field, set_residue, set_iteration, amplified. cbn. f_equal. ext2. unfold times. ring. }
      destruct (prev_norm x) as [q|] eqn:Eq.
      - destruct (Req_EM_T (m * q) 0) as [H|H], (Req_EM_T q 0) as [K|K].
        + cbn [fst snd]. apply (f_equal (fun y => (y, Some ZeroDivisionError))). unfold set_residue, set_iteration, amplified. cbn. rewrite Eq. reflexivity.
        + exfalso. destruct (Rmult_integral _ _ H); [lra|contradiction].
        + exfalso. apply H. rewrite K. ring.
        + replace (m * N / (m * q))%R with (N / q)%R by (field; split; [exact K|lra]).
          destruct (Rlt_dec (N / q) 1); cbn [fst snd]; f_equal; [exact A|].
          rewrite br_update_operators. unfold set_operators, set_residue, set_iteration, amplified. cbn. rewrite Eq. reflexivity.
      - cbn [fst snd]. f_equal. exact A. }
    destruct f; [|apply E]. exact (E (set_iteration x 0)).
  Qed.
  Lemma br_perform u x b : perform u (amplified a x) (amplified_op a b) = amplified a (perform u x b).
  Proof.
    destruct b; cbn [perform amplified_op].
    - rewrite br_next. reflexivity.
    - apply br_set_E.
    - apply br_set_source.
    - apply br_set_j.
    - apply br_set_epsilon.
    - reflexivity.
    - rewrite br_read. reflexivity.
  Qed.
  Lemma br_history u l : forall x, history u (map (amplified_op a) l) (amplified a x) = amplified a (history u l x).
  Proof. induction l as [|b l IH]; intros x; [reflexivity|]. cbn [map]. rewrite !history_cons, br_perform. apply IH. Qed.
  Lemma br_limits {W} maxiter rtol : blind a (limits (W := W) maxiter rtol).
  Proof.
    intros w x. unfold limits. change (iteration (amplified a x)) with (iteration x).
    destruct (match maxiter with Some m => (iteration x <? m)%Z | None => true end); [|reflexivity].
    rewrite br_read. destruct (read_residue x) as [y [[q|]|e]]; reflexivity.
  Qed.
  Lemma br_loop {W} (cb : callback W) : blind a cb -> forall fuel f w x, loop fuel cb f w (amplified a x) = option_map (amplified_outcome a) (loop fuel cb f w x).
  Proof.
    intros Hb. induction fuel as [|fuel IH]; intros f w x; [reflexivity|]. cbn [loop]. rewrite br_next. destruct (next f x) as [y [e|]]; cbn [fst snd]; [reflexivity|].
    rewrite Hb. destruct (cb w y) as [[w' y'] [[|]|e]]; [apply IH|reflexivity|reflexivity].
  Qed.
End Positive.

Lemma br_construct a g v mg k0 alpha beta e xi zeta mu S chi F :
  construct g v mg k0 alpha beta e xi zeta mu (times a S) chi (times a F) = amplified a (construct g v mg k0 alpha beta e xi zeta mu S chi F).
Proof.
  unfold construct, amplified. cbn. f_equal; [|ext2; unfold times; ring].
  unfold prepare, precondition, update_operators, amplified_ops. cbn. f_equal. ext2. unfold times. ring.
Qed.

(** ** Derived quantities *)
Section Derived.
  Variables (u : si) (a : C) (o : ops) (k0 : R) (F : vfield).
  Let o' := amplified_ops a o.
  Let F' := times a F.
  Let q := (Cmod a * Cmod a)%R.
  Lemma br_electric : electric_field k0 F' = times a (electric_field k0 F).
  Proof. ext2. unfold electric_field, F', times, Cdiv. ring. Qed.
  Lemma br_curl E : curl (o_grid o') (vector_length o') (times a E) = times a (curl (o_grid o) (vector_length o) E).
  Proof. apply (lin_times a (curl (o_grid o) (vector_length o))). apply curl_lin. Qed.
  Lemma br_B : magnetic_field u o' k0 F' = times a (magnetic_field u o k0 F).
  Proof. ext2. unfold magnetic_field. rewrite br_electric, br_curl. unfold times, Cdiv. ring. Qed.
  Lemma br_tapply t E : tapply t (times a E) = times a (tapply t E).
  Proof. apply lin_times, tapply_lin. Qed.
  Lemma br_H : magnetizing_field u o' k0 F' = times a (magnetizing_field u o k0 F).
  Proof.
    ext2. unfold magnetizing_field. cbv zeta. rewrite br_electric, br_curl. change (o_magnetic o') with (o_magnetic o). destruct (o_magnetic o).
    - rewrite !br_tapply. unfold o'. cbn [o_alpha o_beta o_chiHH o_chiHE amplified_ops]. unfold times. ring.
    - unfold o'. cbn [o_alpha o_beta o_chiHH o_grid amplified_ops]. unfold times. ring.
  Qed.
  Lemma br_D : displacement_field u o' k0 F' = times a (displacement_field u o k0 F).
  Proof.
    ext2. unfold displacement_field. rewrite br_H, br_curl. unfold o'. cbn [o_alpha o_beta o_source amplified_ops]. unfold times. ring.
  Qed.
  Lemma br_aa : a * Cconj a = RtoC q.
  Proof. unfold q. destruct a as [x y]. unfold Cmod, Cconj, Cmult, RtoC. cbn. rewrite sqrt_sqrt by nra. f_equal; ring. Qed.
  Lemma br_prod (x y : C) : fst (a * x * Cconj (a * y)) = (q * fst (x * Cconj y)%C)%R.
  Proof.
    rewrite Cconj_mult. replace (a * x * (Cconj a * Cconj y)) with (a * Cconj a * (x * Cconj y)) by ring. rewrite br_aa.
    destruct (x * Cconj y) as [r i]. cbn. ring.
  Qed.
  Lemma br_S c p : poynting u o' k0 F' c p = (q * poynting u o k0 F c p)%R.
  Proof.
    unfold poynting. rewrite br_electric, br_H. change (vector_length o') with (vector_length o).
    assert (H : forall E G, cross (vector_length o) (times a E) (fun c p => Cconj (times a G c p)) c p = RtoC q * cross (vector_length o) E (fun c p => Cconj (G c p)) c p).
    { intros E G. unfold cross, times. rewrite <- br_aa. repeat match goal with |- context [if ?b then _ else _] => destruct b end; rewrite ?Cconj_mult; ring. }
    rewrite H. destruct (cross _ _ _ c p) as [r i]. cbn. ring.
  Qed.
  Lemma br_rsum n f g : (forall i, f i = (q * g i)%R) -> rsum n f = (q * rsum n g)%R.
  Proof. intros H. induction n as [|n IH]; cbn [rsum]; [ring|]. rewrite IH, H. ring. Qed.
  Lemma br_energy p : energy_density u o' k0 F' p = (q * energy_density u o k0 F p)%R.
  Proof.
    unfold energy_density. rewrite br_electric, br_H, br_B, br_D. change (vector_length o') with (vector_length o).
    assert (H : forall A B : vfield, rsum (vector_length o) (fun c => fst (times a A c p * Cconj (times a B c p))%C) = (q * rsum (vector_length o) (fun c => fst (A c p * Cconj (B c p))%C))%R)
      by (intros A B; apply br_rsum; intros i; apply br_prod).
    rewrite !H. ring.
  Qed.
  Lemma br_stress i j p : stress_tensor u o' k0 F' i j p = (q * stress_tensor u o k0 F i j p)%R.
  Proof.
    unfold stress_tensor. cbv zeta. rewrite br_electric, br_H. change (vector_length o') with (vector_length o).
    assert (Hs : forall G, rsum (vector_length o) (fun c => (Cmod (times a G c p) * Cmod (times a G c p))%R) = (q * rsum (vector_length o) (fun c => (Cmod (G c p) * Cmod (G c p))%R))%R).
    { intros G. apply br_rsum. intros c. unfold times, q. rewrite Cmod_mult. ring. }
    rewrite !Hs.
    assert (Ho : forall G, outer (times a G) (times a G) i j p = RtoC q * outer G G i j p).
    { intros G. unfold outer, times. rewrite <- br_aa. rewrite ?Cconj_mult. ring. }
    rewrite !Ho. generalize (rsum (vector_length o) (fun c => (Cmod (electric_field k0 F c p) * Cmod (electric_field k0 F c p))%R)).
    generalize (rsum (vector_length o) (fun c => (Cmod (magnetizing_field u o k0 F c p) * Cmod (magnetizing_field u o k0 F c p))%R)).
    destruct (outer (electric_field k0 F) (electric_field k0 F) i j p) as [r1 i1]. destruct (outer (magnetizing_field u o k0 F) (magnetizing_field u o k0 F) i j p) as [r2 i2].
    destruct (eye i j) as [r3 i3]. intros x y. cbn. ring.
  Qed.
  Lemma br_div g n z E : div g n (times z E) = rmap (fun f p => z * f p) (div g n E).
  Proof.
    unfold div, div_ft. destruct (Nat.ltb n (rndim g)); [reflexivity|]. cbn. f_equal. apply functional_extensionality. intros p. rewrite <- ift_scal. f_equal.
    apply functional_extensionality. intros k. rewrite <- csum_scal. apply csum_ext. intros d _. unfold vft, times. rewrite ft_scal. ring.
  Qed.
  Lemma br_divS : div_poynting u o' k0 F' = rmap (fun f p => RtoC q * f p) (div_poynting u o k0 F).
  Proof.
    unfold div_poynting. rewrite <- br_div. change (o_grid o') with (o_grid o). change (vector_length o') with (vector_length o). f_equal. ext2. unfold times. rewrite br_S, RtoC_mult. reflexivity.
  Qed.
  Lemma br_force j : force_density u o' k0 F' j = rmap (fun f p => q * f p)%R (force_density u o k0 F j).
  Proof.
    unfold force_density. change (o_grid o') with (o_grid o). change (vector_length o') with (vector_length o).
    replace (fun i p => RtoC (stress_tensor u o' k0 F' i j p)) with (times (RtoC q) (fun i p => RtoC (stress_tensor u o k0 F i j p)))
      by (ext2; unfold times; rewrite br_stress, RtoC_mult; reflexivity).
    rewrite br_div. destruct (div _ _ _) as [d|e]; [|reflexivity]. cbn. f_equal. apply functional_extensionality. intros p. cbn. ring.
  Qed.
  Lemma br_torque : torque u o' k0 F' = rmap (fun f c p => q * f c p)%R (torque u o k0 F).
  Proof.
    unfold torque. change (o_vectorial o') with (o_vectorial o). destruct (o_vectorial o); [|reflexivity]. cbn [rmap]. f_equal.
    apply functional_extensionality. intros c. apply functional_extensionality. intros p. destruct c as [|[|]]; apply br_stress.
  Qed.
End Derived.
