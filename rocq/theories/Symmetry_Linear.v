(** The iteration is linear in the source and the field, and does not depend on the unit of length. *)
From Coq Require Import Reals Lra Lia List Arith Bool FunctionalExtensionality.
From Coquelicot Require Import Coquelicot.
Require Import Verif.Base Verif.Cplx Verif.CSum Verif.Field Verif.Fourier_Model Verif.Fourier_Spec Verif.Fourier_Proofs.
Require Import Verif.Vec_Model Verif.Vec_Spec Verif.Vec_Proofs Verif.Solver_Model Verif.Solver_Spec Verif.Solver_Proofs Verif.Solver_Convergence.
Require Import Verif.Choice_Model Verif.Symmetry_Spec.
Import ListNotations.
Local Open Scope R_scope.
Local Open Scope C_scope.

Ltac ext2 := apply functional_extensionality; intros ?c; apply functional_extensionality; intros ?p.

Section Linear.
  Variables (a b : C).
  Let comb := combination a b.

  Lemma ft_comb s f g k : ft s (fun p => a * f p + b * g p) k = a * ft s f k + b * ft s g k.
  Proof. rewrite ft_plus, !ft_scal. reflexivity. Qed.
  Lemma ift_comb s f g k : ift s (fun p => a * f p + b * g p) k = a * ift s f k + b * ift s g k.
  Proof. rewrite ift_plus, !ift_scal. reflexivity. Qed.
  Definition lin (op : vfield -> vfield) : Prop := forall F G, op (comb F G) = comb (op F) (op G).
  Lemma convolve_lin s op : lin op -> lin (convolve s op).
  Proof.
    intros H F G. unfold convolve. assert (E : vft s (comb F G) = comb (vft s F) (vft s G)) by (ext2; apply ft_comb). rewrite E, H. ext2. apply ift_comb.
  Qed.
  Lemma lin_plus op1 op2 : lin op1 -> lin op2 -> lin (fun F c p => op1 F c p + op2 F c p).
  Proof. intros H1 H2 F G. ext2. rewrite H1, H2. unfold comb, combination. ring. Qed.
  Lemma lin_comp op1 op2 : lin op1 -> lin op2 -> lin (fun F => op1 (op2 F)).
  Proof. intros H1 H2 F G. rewrite H2, H1. reflexivity. Qed.
  Lemma curl_lin g n : lin (curl g n).
  Proof.
    apply convolve_lin. intros F G. ext2. unfold comb, combination, curl_ft.
    destruct (_ && _)%bool; destruct (_ && _)%bool; ring.
  Qed.
  Lemma tapply_lin t : lin (tapply t).
  Proof.
    intros F G. ext2. unfold comb, combination. destruct t as [f|m]; cbn [tapply]; [ring|]. rewrite <- !csum_scal, <- csum_plus. apply csum_ext. intros i _. ring.
  Qed.
  Lemma longitudinal_lin g : lin (longitudinal_ft g).
  Proof.
    intros F G. ext2. unfold comb, combination, longitudinal_ft. destruct (Nat.ltb c (rndim g)); [|ring]. destruct (is_origin p); [ring|].
    rewrite (csum_ext _ _ (fun i => a * (RtoC (kvec g i p) * F i p) + b * (RtoC (kvec g i p) * G i p))) by (intros; ring). rewrite csum_plus, !csum_scal. unfold Cdiv. ring.
  Qed.
  Lemma g_ft_lin o : lin (g_ft_op o).
  Proof.
    intros F G. ext2. unfold g_ft_op. rewrite (longitudinal_lin (o_grid o) F G). unfold comb, combination. destruct (o_vectorial o); ring.
  Qed.
  Lemma green_lin o : lin (green_op o).
  Proof. apply convolve_lin, g_ft_lin. Qed.
  Lemma chi_lin o : lin (chi_op o).
  Proof.
    unfold chi_op. destruct (o_magnetic o); [|apply tapply_lin]. intros F G. cbv zeta. rewrite (curl_lin (o_grid o) (vector_length o) F G).
    set (D1 := curl (o_grid o) (vector_length o) F). set (D2 := curl (o_grid o) (vector_length o) G).
    assert (E : (fun c p => tapply (o_chiEH o) (comb F G) c p + tapply (o_chiHH o) (comb D1 D2) c p) =
      comb (fun c p => tapply (o_chiEH o) F c p + tapply (o_chiHH o) D1 c p) (fun c p => tapply (o_chiEH o) G c p + tapply (o_chiHH o) D2 c p)).
    { ext2. rewrite !tapply_lin. unfold comb, combination. ring. }
    rewrite E, curl_lin. ext2. rewrite !tapply_lin. unfold comb, combination. ring.
  Qed.
End Linear.

(** The same problem with another source. *)
Definition with_source (o : ops) (S : vfield) : ops :=
  {| o_grid := o_grid o; o_vectorial := o_vectorial o; o_magnetic := o_magnetic o; o_alpha := o_alpha o; o_beta := o_beta o;
     o_chiEE := o_chiEE o; o_chiEH := o_chiEH o; o_chiHE := o_chiHE o; o_chiHH := o_chiHH o; o_source := S |}.
Lemma update_comb a b o S1 S2 F1 F2 :
  update (with_source o (combination a b S1 S2)) (combination a b F1 F2) = combination a b (update (with_source o S1) F1) (update (with_source o S2) F2).
Proof.
  unfold update. cbv zeta. change (chi_op (with_source o (combination a b S1 S2))) with (chi_op o). change (chi_op (with_source o S1)) with (chi_op o).
  change (chi_op (with_source o S2)) with (chi_op o). change (green_op (with_source o (combination a b S1 S2))) with (green_op o). change (green_op (with_source o S1)) with (green_op o).
  change (green_op (with_source o S2)) with (green_op o). cbn [o_source with_source]. rewrite <- (chi_lin a b o). f_equal.
  assert (E : (fun c p => chi_op o (combination a b F1 F2) c p + combination a b S1 S2 c p) = combination a b (fun c p => chi_op o F1 c p + S1 c p) (fun c p => chi_op o F2 c p + S2 c p)).
  { ext2. rewrite (chi_lin a b o). unfold combination. ring. }
  rewrite E, (green_lin a b o). ext2. unfold combination. ring.
Qed.
Lemma next_comb a b o S1 S2 F1 F2 :
  next_field (with_source o (combination a b S1 S2)) (combination a b F1 F2) = combination a b (next_field (with_source o S1) F1) (next_field (with_source o S2) F2).
Proof. unfold next_field. rewrite update_comb. ext2. unfold combination. ring. Qed.
Lemma iter_comb a b o S1 S2 F1 F2 i :
  Nat.iter i (next_field (with_source o (combination a b S1 S2))) (combination a b F1 F2) =
  combination a b (Nat.iter i (next_field (with_source o S1)) F1) (Nat.iter i (next_field (with_source o S2)) F2).
Proof. induction i as [|i IH]; [reflexivity|]. etransitivity; [|exact (next_comb a b o S1 S2 (Nat.iter i (next_field (with_source o S1)) F1) (Nat.iter i (next_field (with_source o S2)) F2))]. rewrite <- IH. reflexivity. Qed.

Lemma construct_source eps g k0 v epsilon xi zeta mu settled kappa S :
  construct eps g k0 v epsilon xi zeta mu settled kappa S =
  let o := construct eps g k0 v epsilon xi zeta mu settled kappa (fun _ _ => 1) in with_source o (fun c p => S c p * o_source o c p).
Proof.
  unfold construct. destruct (choose _ _ _ _ _ _ _ _ _ _) as [alpha beta]. cbv zeta. unfold prepare, precondition, update_operators, with_source. cbn.
  f_equal. ext2. ring.
Qed.
Lemma superposition_proof eps g k0 v epsilon xi zeta mu settled kappa a b S1 S2 F1 F2 i :
  let o S := construct eps g k0 v epsilon xi zeta mu settled kappa S in
  Nat.iter i (next_field (o (combination a b S1 S2))) (combination a b F1 F2) = combination a b (Nat.iter i (next_field (o S1)) F1) (Nat.iter i (next_field (o S2)) F2).
Proof.
  intros o. unfold o. rewrite (construct_source _ _ _ _ _ _ _ _ _ _ (combination a b S1 S2)), (construct_source _ _ _ _ _ _ _ _ _ _ S1), (construct_source _ _ _ _ _ _ _ _ _ _ S2). cbv zeta.
  rewrite <- iter_comb. do 3 f_equal. ext2. unfold combination. ring.
Qed.

(** ** Units *)
Lemma superposition_one eps g k0 v epsilon xi zeta mu settled kappa (a : C) S F i :
  let o S := construct eps g k0 v epsilon xi zeta mu settled kappa S in
  Nat.iter i (next_field (o (fun c p => a * S c p))) (fun c p => a * F c p) = fun c p => a * Nat.iter i (next_field (o S)) F c p.
Proof.
  intros o. pose proof (superposition_proof eps g k0 v epsilon xi zeta mu settled kappa a 0 S S F F i) as H. cbv zeta in H. fold o in H.
  assert (E : forall F, combination a 0 F F = fun c p => a * F c p) by (intros F'; ext2; unfold combination; ring). 
  rewrite (E S), (E F) in H. unfold o in *. rewrite H. ext2. unfold combination. ring.
Qed.
Lemma fold_scaled a step : a <> 0%R -> List.Forall (fun d => d <> 0%R) step ->
  fold_right (fun d acc => (2 * PI / (2 * d)) * (2 * PI / (2 * d)) + acc)%R 0%R (map (Rmult a) step) = (/ (a * a) * fold_right (fun d acc => (2 * PI / (2 * d)) * (2 * PI / (2 * d)) + acc) 0 step)%R.
Proof.
  intros Ha. induction 1 as [|d l Hd _ IH]; cbn [map fold_right]; [ring|]. rewrite IH. field. split; assumption.
Qed.
Lemma fold_nonneg step : (0 <= fold_right (fun d acc => (2 * PI / (2 * d)) * (2 * PI / (2 * d)) + acc) 0 step)%R.
Proof. induction step as [|d l IH]; cbn [fold_right]; [lra|]. pose proof (Rle_0_sqr (2 * PI / (2 * d))). unfold Rsqr in *. lra. Qed.
Lemma sigma_D_scaled a step k0 : (0 < a)%R -> k0 <> 0%R -> List.Forall (fun d => d <> 0%R) step -> sigma_D (map (Rmult a) step) (k0 / a) = sigma_D step k0.
Proof.
  intros Ha Hk Hs. unfold sigma_D. rewrite fold_scaled by (try assumption; lra). rewrite sqrt_mult by (try apply fold_nonneg; apply Rlt_le, Rinv_0_lt_compat; nra).
  replace (/ (a * a))%R with (/ a * / a)%R by (field; lra). rewrite sqrt_square by (apply Rlt_le, Rinv_0_lt_compat; exact Ha). field. lra.
Qed.
Lemma magnified_proof eps g k0 v epsilon xi zeta mu settled kappa a S F i : (0 < a)%R -> k0 <> 0%R -> List.Forall (fun d => d <> 0%R) (rstep g) ->
  electric_field (k0 / a) (Nat.iter i (next_field (construct eps (magnified a g) (k0 / a) v epsilon xi zeta mu settled kappa (fun c p => S c p / RtoC (a * a)))) (fun c p => F c p / RtoC (a * a))) =
  electric_field k0 (Nat.iter i (next_field (construct eps g k0 v epsilon xi zeta mu settled kappa S)) F).
Proof.
  intros Ha Hk Hs. assert (Na : RtoC a <> 0) by (apply RtoC_neq; lra). assert (Nk : RtoC k0 <> 0) by (apply RtoC_neq; assumption).
  assert (E : forall S, construct eps (magnified a g) (k0 / a) v epsilon xi zeta mu settled kappa S = construct eps g k0 v epsilon xi zeta mu settled kappa S).
  { intros S'. unfold construct. cbn [rshape rstep magnified]. assert (Ec : forall e xi zeta mu, choose eps (rshape g) (map (Rmult a) (rstep g)) (k0 / a) e xi zeta mu settled kappa = choose eps (rshape g) (rstep g) k0 e xi zeta mu settled kappa).
    { intros. unfold choose. rewrite (sigma_D_scaled a (rstep g) k0 Ha Hk Hs). reflexivity. }
    rewrite Ec. destruct (choose _ _ _ _ _ _ _ _ _ _) as [alpha beta]. f_equal. f_equal. rewrite map_map. apply map_ext. intros d. field. lra. }
  rewrite E. replace (fun c p => S c p / RtoC (a * a)) with (fun c p => / RtoC (a * a) * S c p) by (ext2; unfold Cdiv; ring).
  replace (fun c p => F c p / RtoC (a * a)) with (fun c p => / RtoC (a * a) * F c p) by (ext2; unfold Cdiv; ring).
  pose proof (superposition_one eps g k0 v epsilon xi zeta mu settled kappa (/ RtoC (a * a)) S F i) as H. cbv zeta in H. rewrite H. ext2. unfold electric_field.
  replace (k0 / a * (k0 / a))%R with (k0 * k0 / (a * a))%R by (field; lra). rewrite RtoC_div by nra. rewrite !RtoC_mult. field. split; assumption.
Qed.

(** ** Converged fields *)
Lemma cv_combination n s k0 (u v : nat -> vfield) E1 E2 a b :
  is_lim_seq (fun i => vnorm2 n s (fun c p => electric_field k0 (u i) c p - E1 c p)) 0%R -> is_lim_seq (fun i => vnorm2 n s (fun c p => electric_field k0 (v i) c p - E2 c p)) 0%R ->
  is_lim_seq (fun i => vnorm2 n s (fun c p => electric_field k0 (combination a b (u i) (v i)) c p - combination a b E1 E2 c p)) 0%R.
Proof.
  intros H1 H2.
  apply (is_lim_seq_le_le (fun _ => 0%R) _ (fun i => 2 * (Cmod a * Cmod a) * vnorm2 n s (fun c p => electric_field k0 (u i) c p - E1 c p)%C + 2 * (Cmod b * Cmod b) * vnorm2 n s (fun c p => electric_field k0 (v i) c p - E2 c p)%C)%R).
  - intros i. split; [apply vnorm2_nonneg|].
    rewrite (vagree_vnorm2 n s _ (fun c p => a * (electric_field k0 (u i) c p - E1 c p) + b * (electric_field k0 (v i) c p - E2 c p))).
    + eapply Rle_trans; [apply vnorm2_sum_le|]. rewrite !vnorm2_scal. lra.
    + intros c p _ _. unfold electric_field, combination, Cdiv. ring.
  - apply is_lim_seq_const.
  - replace (Finite 0) with (Finite (2 * (Cmod a * Cmod a) * 0 + 2 * (Cmod b * Cmod b) * 0)%R) by (f_equal; ring). apply is_lim_seq_plus'; apply is_lim_seq_mult'; try apply is_lim_seq_const; assumption.
Qed.
