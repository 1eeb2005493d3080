(** Translation of magnetic and chiral media. *)
From Coq Require Import Reals Lra Lia List Arith Bool FunctionalExtensionality.
Require Import Verif.Base Verif.Cplx Verif.CSum Verif.Field Verif.Fourier_Model Verif.Fourier_Spec Verif.Fourier_Proofs.
Require Import Verif.Vec_Model Verif.Vec_Spec Verif.Vec_Proofs Verif.Solver_Model Verif.Solver_Spec Verif.Solver_Proofs Verif.Derived_Tensor.
Require Import Verif.Choice_Model Verif.Symmetry_Spec Verif.Symmetry_Shift.
Import ListNotations.
Local Open Scope R_scope.
Local Open Scope C_scope.

Lemma curl_multiplies g : (rndim g <= 3)%nat -> multiplies (rshape g) 3 (curl_ft g 3 3).
Proof. intros Hn w F c k Hc Hk. rewrite !curl_ft_cross by assumption. unfold cross3. destruct c as [|[|c]]; ring. Qed.
Lemma curl_translated g q F : (rndim g <= 3)%nat -> inside (rshape g) q -> vagree 3 (rshape g) (curl g 3 (translated (rshape g) q F)) (translated (rshape g) q (curl g 3 F)).
Proof. intros Hn Hq. exact (convolve_translated (rshape g) 3 (curl_ft g 3 3) F q (curl_pointwise g Hn) (curl_multiplies g Hn) Hq). Qed.

Section Translated.
  Variables (g : raster) (alpha : C) (beta : R) (epsilon xi zeta mu : tensor) (S : vfield) (q : list nat).
  Hypothesis Hn : (rndim g <= 3)%nat.
  Let s := rshape g.
  Hypothesis Hq : inside s q.
  Notation tr := (translated_tensor s q).
  Let o := prepare g true true alpha beta epsilon xi zeta mu S.
  Let o' := prepare g true true alpha beta (tr epsilon) (tr xi) (tr zeta) (tr mu) (translated s q S).
  Lemma tr_tshift a t : tshift a (tr t) = tr (tshift a t).
  Proof. destruct t; reflexivity. Qed.
  Lemma tr_one z : TScalar (fun _ => z) = tr (TScalar (fun _ => z)).
  Proof. reflexivity. Qed.
  Lemma ms_tensors : o_chiEE o' = tr (o_chiEE o) /\ o_chiEH o' = tr (o_chiEH o) /\ o_chiHE o' = tr (o_chiHE o) /\ o_chiHH o' = tr (o_chiHH o).
  Proof.
    unfold o, o', prepare, update_operators, precondition. cbn [o_chiEE o_chiEH o_chiHE o_chiHH o_alpha].
    destruct epsilon, xi, zeta, mu; refine (conj eq_refl (conj eq_refl (conj eq_refl eq_refl))).
  Qed.
  Lemma ms_curl F : vagree 3 s (curl g 3 (translated s q F)) (translated s q (curl g 3 F)).
  Proof. exact (curl_translated g q F Hn Hq). Qed.
  Lemma ms_chi F : vagree 3 s (chi_op o' (translated s q F)) (translated s q (chi_op o F)).
  Proof.
    destruct ms_tensors as (T1 & T2 & T3 & T4). intros c p Hc Hp. unfold chi_op. change (o_magnetic o') with true. change (o_magnetic o) with true. change (vector_length o') with 3%nat. change (vector_length o) with 3%nat. change (o_grid o') with g. change (o_grid o) with g. cbv beta iota zeta.
    rewrite T1, T2, T3, T4. set (X := fun c p => tapply (o_chiEH o) F c p + tapply (o_chiHH o) (curl g 3 F) c p).
    assert (V : vagree 3 s (fun c p => tapply (tr (o_chiEH o)) (translated s q F) c p + tapply (tr (o_chiHH o)) (curl g 3 (translated s q F)) c p) (translated s q X)).
    { intros c' p' Hc' Hp'. rewrite tapply_translated, (tapply_ext3 s (tr (o_chiHH o)) _ _ (ms_curl F) c' p' Hc' Hp'), tapply_translated. reflexivity. }
    rewrite (curl_vagree g _ _ Hn V c p Hc Hp), (ms_curl X c p Hc Hp), tapply_translated, (tapply_ext3 s (tr (o_chiHE o)) _ _ (ms_curl F) c p Hc Hp), tapply_translated. reflexivity.
  Qed.
  Lemma ms_chi_vagree F G : vagree 3 s F G -> vagree 3 s (chi_op o' F) (chi_op o' G).
  Proof.
    intros H. pose proof (curl_vagree g F G Hn H) as D. intros c p Hc Hp. unfold chi_op. change (o_magnetic o') with true. change (vector_length o') with 3%nat. change (o_grid o') with g. cbv beta iota zeta.
    rewrite (tapply_ext3 s _ F G H c p Hc Hp), (tapply_ext3 s _ _ _ D c p Hc Hp). f_equal. apply (curl_vagree g _ _ Hn); [|exact Hc|exact Hp].
    intros c' p' Hc' Hp'. rewrite (tapply_ext3 s _ F G H c' p' Hc' Hp'), (tapply_ext3 s _ _ _ D c' p' Hc' Hp'). reflexivity.
  Qed.
  Lemma ms_pointwise : pointwise s 3 (g_ft_op o').
  Proof. apply (g_pointwise o' 3). intros _. split; [reflexivity|exact Hn] || exact Hn. Qed.
  Lemma ms_green F : vagree 3 s (green_op o' (translated s q F)) (translated s q (green_op o F)).
  Proof. exact (convolve_translated s 3 (g_ft_op o') F q ms_pointwise (g_multiplies o' 3) Hq). Qed.
  Lemma ms_green_vagree F G : vagree 3 s F G -> vagree 3 s (green_op o' F) (green_op o' G).
  Proof. exact (convolve_vagree s 3 (g_ft_op o') F G ms_pointwise). Qed.
  Lemma ms_update F F' : vagree 3 s F' (translated s q F) -> vagree 3 s (update o' F') (translated s q (update o F)).
  Proof.
    intros H. unfold update. cbv zeta.
    set (X := fun c p => chi_op o F c p + o_source o c p). set (X' := fun c p => chi_op o' F' c p + o_source o' c p). set (D := fun c p => green_op o X c p - F c p).
    assert (A : vagree 3 s X' (translated s q X)).
    { intros c p Hc Hp. unfold X', X. rewrite (ms_chi_vagree F' _ H c p Hc Hp), (ms_chi F c p Hc Hp). reflexivity. }
    assert (B : vagree 3 s (fun c p => green_op o' X' c p - F' c p) (translated s q D)).
    { intros c p Hc Hp. rewrite (ms_green_vagree X' _ A c p Hc Hp), (ms_green X c p Hc Hp), (H c p Hc Hp). reflexivity. }
    intros c p Hc Hp. rewrite (ms_chi_vagree _ _ B c p Hc Hp). apply ms_chi; assumption.
  Qed.
  Lemma ms_iter F i : vagree 3 s (Nat.iter i (next_field o') (translated s q F)) (translated s q (Nat.iter i (next_field o) F)).
  Proof.
    induction i as [|i IH]; [intros c p _ _; reflexivity|]. intros c p Hc Hp.
    change (next_field o' (Nat.iter i (next_field o') (translated s q F)) c p = translated s q (next_field o (Nat.iter i (next_field o) F)) c p).
    unfold next_field at 1. rewrite (ms_update _ _ IH c p Hc Hp), (IH c p Hc Hp). reflexivity.
  Qed.
End Translated.

Lemma ms_choose eps s q step k0 epsilon xi zeta mu settled kappa : inside s q -> let tr := translated_tensor s q in is_magnetic s xi zeta mu = true -> is_magnetic s (tr xi) (tr zeta) (tr mu) = true ->
  choose eps s step k0 (tr epsilon) (tr xi) (tr zeta) (tr mu) settled kappa = choose eps s step k0 epsilon xi zeta mu settled kappa.
Proof.
  intros Hq tr M M'. unfold choose. rewrite M, M'.
  assert (forall d a b, singular_value_sum eps s d (tr epsilon) (tr xi) (tr zeta) (tr mu) a b = singular_value_sum eps s d epsilon xi zeta mu a b) as E; [|rewrite E; reflexivity].
  intros d a b. unfold singular_value_sum, tr. rewrite tr_effective, (tr_sigma eps s q Hq). unfold sigma_HH, largest_singularvalue.
  assert (chiHH_beta2 (translated_tensor s q mu) b = translated_tensor s q (chiHH_beta2 mu b)) as E1 by (destruct mu; reflexivity). rewrite E1, (tr_largest eps s q Hq).
  rewrite !tr_tinv, !tr_tmul, !tr_tscale, !tr_tadjoint, !tr_tmul, !(tr_largest eps s q Hq). reflexivity.
Qed.
Lemma magnetic_translation_proof eps g k0 epsilon xi zeta mu settled kappa S F q i : (rndim g <= 3)%nat -> let s := rshape g in inside s q -> let tr := translated_tensor s q in
  is_magnetic s xi zeta mu = true -> is_magnetic s (tr xi) (tr zeta) (tr mu) = true ->
  let o := construct eps g k0 true epsilon xi zeta mu settled kappa S in
  let o' := construct eps g k0 true (tr epsilon) (tr xi) (tr zeta) (tr mu) settled kappa (translated s q S) in
  vagree 3 s (Nat.iter i (next_field o') (translated s q F)) (translated s q (Nat.iter i (next_field o) F)).
Proof.
  intros Hn s Hq tr M M' o o'. unfold o, o', construct. unfold tr, s in *. rewrite (ms_choose eps (rshape g) q) by assumption. rewrite M, M'. destruct (choose _ _ _ _ _ _ _ _ _ _) as [alpha beta].
  apply (ms_iter {| rshape := rshape g; rstep := map (Rmult k0) (rstep g) |} alpha beta epsilon xi zeta mu S q); assumption.
Qed.
