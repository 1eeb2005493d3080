(** The two polarizations of planar problems. *)
From Coq Require Import Reals Lra Lia List Arith Bool FunctionalExtensionality.
Require Import Verif.Base Verif.Cplx Verif.CSum Verif.Field Verif.Fourier_Model Verif.Fourier_Spec Verif.Fourier_Proofs.
Require Import Verif.Vec_Model Verif.Vec_Spec Verif.Vec_Proofs Verif.Solver_Model Verif.Solver_Spec Verif.Choice_Model Verif.Derived_Model Verif.Derived_Spec Verif.Symmetry_Embed Verif.Plane_Spec.
Import ListNotations.
Local Open Scope R_scope.
Local Open Scope C_scope.

Section Plane.
Variable axis : nat.
Hypothesis Hax : (axis < 3)%nat.

(** Only the component along the axis (b = true), or only the other components (b = false). *)
Definition polar (b : bool) (F : vfield) : Prop := forall c p, (c < 3)%nat -> Nat.eqb c axis <> b -> F c p = 0.
Lemma polar_perpendicular F : polar true F <-> perpendicular axis F.
Proof. split; intros H c p Hc E; apply H; try assumption; destruct (Nat.eqb_spec c axis); congruence. Qed.
Lemma polar_in_plane F : polar false F <-> in_plane axis F.
Proof.
  split; [intros H p; apply H; [exact Hax|rewrite Nat.eqb_refl; discriminate]|]. intros H c p _ E. destruct (Nat.eqb_spec c axis) as [->|N]; [apply H|congruence].
Qed.
(** A tensor that exchanges the two (x = true), or not (x = false). *)
Definition shaped (x : bool) (t : tensor) : Prop := match t with
  | TScalar f => x = true -> forall p, f p = 0
  | TMatrix m => forall i j p, (i < 3)%nat -> (j < 3)%nat -> xorb (Nat.eqb i axis) (Nat.eqb j axis) <> x -> m i j p = 0
  end.
Lemma shaped_straight t : straight axis t -> shaped false t.
Proof.
  destruct t as [f|m]; cbn; [discriminate|]. intros H i j p Hi Hj E. destruct (Nat.eqb_spec i axis) as [->|Ni], (Nat.eqb_spec j axis) as [->|Nj]; cbn in E; try congruence; apply H; assumption.
Qed.
Lemma shaped_turning t : turning axis t -> shaped true t.
Proof.
  destruct t as [f|m]; cbn; [intros H _; exact H|]. intros H i j p Hi Hj E. destruct (H p) as [A B]. destruct (Nat.eqb_spec i axis) as [->|Ni], (Nat.eqb_spec j axis) as [->|Nj]; cbn in E; try congruence; apply B; assumption.
Qed.
Lemma shaped_scale a x t : shaped x t -> shaped x (tscale a t).
Proof. destruct t as [f|m]; cbn; intros H; [intros E p; rewrite H by assumption; ring|]. intros i j p Hi Hj E. rewrite H by assumption. ring. Qed.
Lemma eye_off i j (b : bool) : xorb (Nat.eqb i axis) (Nat.eqb j axis) <> false -> eye i j = 0.
Proof. unfold eye. destruct (Nat.eqb_spec i j) as [->|N]; [rewrite xorb_nilpotent; congruence|reflexivity]. Qed.
Lemma shaped_shift a t : shaped false t -> shaped false (tshift a t).
Proof. destruct t as [f|m]; cbn; intros H; [discriminate|]. intros i j p Hi Hj E. rewrite H, (eye_off i j true) by assumption. ring. Qed.
Lemma shaped_sub t t' : shaped false t -> shaped false t' -> shaped false (tsub t t').
Proof.
  destruct t as [f|m], t' as [f'|m']; cbn; intros H H'; try discriminate; intros i j p Hi Hj E; rewrite ?(eye_off i j true), ?H, ?H' by assumption; ring.
Qed.
Lemma shaped_mul x y t t' : shaped x t -> shaped y t' -> shaped (xorb x y) (tmul t t').
Proof.
  destruct t as [f|m], t' as [f'|m']; cbn [shaped tmul]; intros H H'.
  - intros E p. destruct x; [rewrite H by reflexivity; ring|]. destruct y; [rewrite H' by reflexivity; ring|discriminate].
  - intros i j p Hi Hj E. destruct x; [rewrite H by reflexivity; ring|]. rewrite xorb_false_l in E. rewrite H' by assumption. ring.
  - intros i j p Hi Hj E. destruct y; [rewrite H' by reflexivity; ring|]. rewrite xorb_false_r in E. rewrite H by assumption. ring.
  - intros i k p Hi Hk E. rewrite (csum_ext 3 _ (fun _ => 0)); [apply csum_zero|]. intros j Hj.
    destruct (bool_dec (xorb (Nat.eqb i axis) (Nat.eqb j axis)) x) as [A|A]; [|rewrite H by assumption; ring].
    destruct (bool_dec (xorb (Nat.eqb j axis) (Nat.eqb k axis)) y) as [B|B]; [|rewrite H' by assumption; ring].
    exfalso. apply E. rewrite <- A, <- B. destruct (Nat.eqb i axis), (Nat.eqb j axis), (Nat.eqb k axis); reflexivity.
Qed.
Lemma shaped_inv t : shaped false t -> shaped false (tinv t).
Proof.
  destruct t as [f|m]; cbn [shaped tinv]; intros H; [discriminate|]. intros i j p Hi Hj E. unfold inv3. cbv zeta.
  assert (Z : m ((j + 1) mod 3)%nat ((i + 1) mod 3)%nat p * m ((j + 2) mod 3)%nat ((i + 2) mod 3)%nat p - m ((j + 1) mod 3)%nat ((i + 2) mod 3)%nat p * m ((j + 2) mod 3)%nat ((i + 1) mod 3)%nat p = 0); [|rewrite Z; unfold Cdiv; ring].
  assert (K : forall a b, (a < 3)%nat -> (b < 3)%nat -> xorb (Nat.eqb a axis) (Nat.eqb b axis) = true -> m a b p = 0) by (intros a b Ha Hb Q; apply H; try assumption; rewrite Q; discriminate).
  destruct i as [|[|[|i]]]; try lia; destruct j as [|[|[|j]]]; try lia; destruct axis as [|[|[|ax]]]; try lia; cbn in E; try congruence; cbn [Nat.add Nat.modulo Nat.divmod fst snd Nat.sub];
    try (cbn; rewrite ?(K 0%nat 1%nat), ?(K 0%nat 2%nat), ?(K 1%nat 2%nat), ?(K 1%nat 0%nat), ?(K 2%nat 0%nat), ?(K 2%nat 1%nat) by (lia || reflexivity); ring);
    cbn; repeat match goal with |- context [m ?a ?b p] => lazymatch goal with H' : m a b p = 0 |- _ => fail | _ => first [let Q := fresh in assert (Q : m a b p = 0) by (apply K; [lia|lia|reflexivity]); rewrite Q] end end; ring.
Qed.
Lemma polar_apply x b t F : shaped x t -> polar b F -> polar (xorb x b) (tapply t F).
Proof.
  destruct t as [f|m]; cbn [shaped tapply]; intros H HF c p Hc E.
  - destruct x; [rewrite H by reflexivity; ring|]. rewrite xorb_false_l in E. rewrite HF by assumption. ring.
  - rewrite (csum_ext 3 _ (fun _ => 0)); [apply csum_zero|]. intros j Hj.
    destruct (bool_dec (xorb (Nat.eqb c axis) (Nat.eqb j axis)) x) as [A|A]; [|rewrite H by assumption; ring].
    destruct (bool_dec (Nat.eqb j axis) b) as [B|B]; [|rewrite HF by assumption; ring].
    exfalso. apply E. rewrite <- A, <- B. destruct (Nat.eqb c axis), (Nat.eqb j axis); reflexivity.
Qed.
Lemma polar_keep b t F : shaped false t -> polar b F -> polar b (tapply t F).
Proof. intros H K. pose proof (polar_apply false b t F H K) as Q. rewrite xorb_false_l in Q. exact Q. Qed.
Lemma polar_turn b t F : shaped true t -> polar b F -> polar (negb b) (tapply t F).
Proof. intros H K. pose proof (polar_apply true b t F H K) as Q. rewrite xorb_true_l in Q. exact Q. Qed.
Lemma polar_plus b F G : polar b F -> polar b G -> polar b (fun c p => F c p + G c p).
Proof. intros H K c p Hc E. rewrite H, K by assumption. ring. Qed.
Lemma polar_minus b F G : polar b F -> polar b G -> polar b (fun c p => F c p - G c p).
Proof. intros H K c p Hc E. rewrite H, K by assumption. ring. Qed.
Lemma polar_times b (w : list nat -> C) F : polar b F -> polar b (fun c p => F c p * w p).
Proof. intros H c p Hc E. rewrite H by assumption. ring. Qed.
(** Any linear operation on the Fourier transform that changes the components in the same way. *)
Lemma polar_convolve b b' s op F : (forall G, polar b G -> polar b' (op G)) -> polar b F -> polar b' (convolve s op F).
Proof.
  intros H HF c p Hc E. unfold convolve, vift. assert (V : polar b (vft s F)).
  { intros c' k Hc' E'. unfold vft. rewrite (ft_ext s (F c') (fun _ => 0)); [apply ft_zero|]. intros q _. apply HF; assumption. }
  rewrite (ift_ext s _ (fun _ => 0)); [apply ift_zero|]. intros k _. apply (H _ V c k Hc E).
Qed.
Section Grid.
Variable g : raster.
Hypothesis Hg : (rndim g <= axis)%nat.
Lemma polar_curl b F : polar b F -> polar (negb b) (curl g 3 F).
Proof.
  apply polar_convolve. intros G HG c p Hc E. rewrite curl_ft_cross by lia. unfold cross3.
  assert (W : wavevector g p axis = 0%R) by (unfold wavevector; destruct (Nat.ltb_spec axis (rndim g)); [lia|reflexivity]).
  assert (K : forall i, (i < 3)%nat -> Nat.eqb i axis <> b -> G i p = 0) by (intros i Hi Q; apply HG; assumption).
  clear HG. destruct axis as [|[|[|ax]]]; try lia; destruct c as [|[|[|c]]]; try lia; destruct b; cbn in E; try congruence; rewrite ?W, ?(K 0%nat), ?(K 1%nat), ?(K 2%nat) by (lia || (cbn; discriminate)); ring.
Qed.
Lemma polar_longitudinal b F : polar b F -> polar b (longitudinal_ft g F).
Proof.
  intros H c p Hc E. unfold longitudinal_ft. destruct (Nat.ltb_spec c (rndim g)) as [L|L]; [|reflexivity]. destruct (Nat.eqb_spec c axis) as [->|N]; [lia|]. destruct b; [|congruence].
  destruct (is_origin p); [apply H; [exact Hc|destruct (Nat.eqb_spec c axis); congruence]|]. rewrite (csum_ext _ _ (fun _ => 0)).
  - rewrite csum_zero. unfold Cdiv. ring.
  - intros i Hi. rewrite H; [ring|lia|]. destruct (Nat.eqb_spec i axis); [lia|discriminate].
Qed.
Section Operators.
Variables (mag : bool) (alpha : C) (beta : R) (epsilon xi zeta mu : tensor) (S : vfield).
Hypothesis He : shaped false epsilon.
Hypothesis Hx : shaped true xi.
Hypothesis Hz : shaped true zeta.
Hypothesis Hm : shaped false mu.
Let o := prepare g true mag alpha beta epsilon xi zeta mu S.
Lemma plane_EE : shaped false (o_chiEE o).
Proof.
  unfold o, prepare, update_operators, precondition. cbn [o_chiEE o_alpha]. apply shaped_scale, shaped_shift, shaped_scale, shaped_shift, shaped_scale, shaped_sub; [exact He|].
  apply (shaped_mul true true); [exact Hx|]. apply shaped_scale, shaped_scale. apply (shaped_mul false true); [apply shaped_inv, Hm|exact Hz].
Qed.
Lemma plane_EH : shaped true (o_chiEH o).
Proof. unfold o, prepare, update_operators, precondition. cbn [o_chiEH o_alpha]. apply shaped_scale, shaped_scale, shaped_scale. apply (shaped_mul true false); [exact Hx|apply shaped_inv, Hm]. Qed.
Lemma plane_HE : shaped true (o_chiHE o).
Proof. unfold o, prepare, update_operators, precondition. cbn [o_chiHE o_alpha]. apply shaped_scale, shaped_scale, shaped_scale. apply (shaped_mul false true); [apply shaped_inv, Hm|exact Hz]. Qed.
Lemma plane_HH : mag = true -> shaped false (o_chiHH o).
Proof.
  intros ->. unfold o, prepare, update_operators, precondition. cbn [o_chiHH o_alpha]. apply shaped_scale, shaped_scale, shaped_sub; [discriminate|]. apply shaped_scale, shaped_inv, Hm.
Qed.
Lemma plane_chi b F : polar b F -> polar b (chi_op o F).
Proof.
  intros H. unfold chi_op. change (o_magnetic o) with mag. change (vector_length o) with 3%nat. change (o_grid o) with g. destruct (bool_dec mag true) as [M|M]; [rewrite M|apply not_true_is_false in M; rewrite M; exact (polar_keep b _ _ plane_EE H)].
  pose proof (polar_curl b F H) as C. apply polar_plus; [apply polar_plus|].
  - exact (polar_keep b _ _ plane_EE H).
  - pose proof (polar_turn (negb b) _ _ plane_HE C) as Q. rewrite negb_involutive in Q. exact Q.
  - replace b with (negb (negb b)) by apply negb_involutive. apply polar_curl, polar_plus; [exact (polar_turn b _ _ plane_EH H)|exact (polar_keep (negb b) _ _ (plane_HH M) C)].
Qed.
Lemma plane_green b F : polar b F -> polar b (green_op o F).
Proof.
  apply polar_convolve. intros G H. unfold g_ft_op. change (o_vectorial o) with true. change (o_grid o) with g. cbv iota. pose proof (polar_longitudinal b G H) as L.
  apply polar_plus; [apply (polar_times b (g_scalar o)), polar_minus; assumption|apply (polar_times b (fun _ => Ci * im (o_alpha o) / o_alpha o)), L].
Qed.
Lemma plane_source b : polar b S -> polar b (o_source o).
Proof. intros H c p Hc E. unfold o, prepare, update_operators, precondition. cbn [o_source]. rewrite H by assumption. ring. Qed.
Lemma plane_next b F : polar b S -> polar b F -> polar b (next_field o F).
Proof.
  intros HS H. unfold next_field, update. cbv zeta. apply polar_plus; [exact H|]. apply plane_chi, polar_minus; [|exact H]. apply plane_green, polar_plus; [apply plane_chi, H|apply plane_source, HS].
Qed.
Lemma plane_iter b F i : polar b S -> polar b F -> polar b (Nat.iter i (next_field o) F).
Proof. intros HS H. induction i as [|i IH]; [exact H|]. exact (plane_next b _ HS IH). Qed.
Lemma plane_E b k0 F : polar b F -> polar b (electric_field k0 F).
Proof. intros H c p Hc E. unfold electric_field. rewrite H by assumption. unfold Cdiv. ring. Qed.
Lemma plane_B b u k0 F : polar b F -> polar (negb b) (magnetic_field u o k0 F).
Proof. intros H c p Hc E. unfold magnetic_field. change (vector_length o) with 3%nat. change (o_grid o) with g. rewrite (polar_curl b _ (plane_E b k0 F H)) by assumption. unfold Cdiv. ring. Qed.
Lemma plane_H b u k0 F : polar b F -> polar (negb b) (magnetizing_field u o k0 F).
Proof.
  intros H. unfold magnetizing_field. cbv zeta. change (o_magnetic o) with mag. change (vector_length o) with 3%nat. change (o_grid o) with g. pose proof (polar_curl b _ (plane_E b k0 F H)) as C.
  destruct (bool_dec mag true) as [M|M]; [rewrite M|apply not_true_is_false in M; rewrite M]; intros c p Hc E.
  - assert (A : shaped false (tscale (RtoC (o_beta o)) (tsub (TScalar (fun _ => 1)) (tscale (- Ci * im (o_alpha o)) (o_chiHH o))))) by (apply shaped_scale, shaped_sub; [discriminate|apply shaped_scale, plane_HH, M]).
    pose proof (polar_keep (negb b) _ _ A C c p Hc E) as Z1. pose proof (polar_turn b _ _ (shaped_scale (- Ci * im (o_alpha o)) true _ plane_HE) (plane_E b k0 F H) c p Hc E) as Z2.
    rewrite Z1, Z2. ring.
  - rewrite (C c p Hc E). ring.
Qed.
Lemma plane_D b u k0 F : polar b S -> polar b F -> polar b (displacement_field u o k0 F).
Proof.
  intros HS H c p Hc E. unfold displacement_field. change (vector_length o) with 3%nat. change (o_grid o) with g. rewrite <- (negb_involutive b) in E. rewrite (polar_curl (negb b) _ (plane_H b u k0 F H) c p Hc E), (plane_source b HS c p Hc) by (rewrite <- (negb_involutive b); exact E). ring.
Qed.
Lemma plane_S b u k0 F p : polar b F -> poynting u o k0 F axis p = 0%R.
Proof.
  intros H. unfold poynting, cross. change (vector_length o) with 3%nat. pose proof (plane_E b k0 F H) as A. pose proof (plane_H b u k0 F H) as B.
  set (X := electric_field k0 F) in *. set (Y := magnetizing_field u o k0 F) in *. cbv beta.
  assert (Z : X ((axis + 1) mod 3)%nat p * Cconj (Y ((axis + 3 - 1) mod 3)%nat p) - X ((axis + 3 - 1) mod 3)%nat p * Cconj (Y ((axis + 1) mod 3)%nat p) = 0).
  { assert (N : forall i, (i < 3)%nat -> i <> axis -> X i p = 0 \/ Y i p = 0). { intros i Hi Q. apply Nat.eqb_neq in Q. destruct b; [left; apply A; [exact Hi|rewrite Q; discriminate]|right; apply B; [exact Hi|rewrite Q; discriminate]]. }
    assert (O : forall i j, (i < 3)%nat -> (j < 3)%nat -> i <> axis -> j <> axis -> X i p * Cconj (Y j p) = 0).
    { intros i j Hi Hj Qi Qj. apply Nat.eqb_neq in Qi, Qj. destruct b; [rewrite A by (exact Hi || (rewrite Qi; discriminate)); ring|rewrite B by (exact Hj || (rewrite Qj; discriminate))]. apply C_eq; cbn; ring. }
    assert (M1 : ((axis + 1) mod 3 < 3)%nat) by (apply Nat.mod_upper_bound; lia). assert (M2 : ((axis + 3 - 1) mod 3 < 3)%nat) by (apply Nat.mod_upper_bound; lia).
    assert (N1 : ((axis + 1) mod 3)%nat <> axis) by (destruct axis as [|[|[|ax]]]; cbn; lia). assert (N2 : ((axis + 3 - 1) mod 3)%nat <> axis) by (destruct axis as [|[|[|ax]]]; cbn; lia).
    rewrite !O by assumption. ring. }
  rewrite Z. cbn. ring.
Qed.
End Operators.
End Grid.
End Plane.

Lemma plane_proof eps u g k0 epsilon xi zeta mu settled thick S F i axis : (rndim g <= axis < 3)%nat -> straight axis epsilon -> turning axis xi -> turning axis zeta -> straight axis mu ->
  let o := construct eps g k0 true epsilon xi zeta mu settled thick S in let X := Nat.iter i (next_field o) F in
  (perpendicular axis S -> perpendicular axis F -> perpendicular axis (electric_field k0 X) /\ perpendicular axis (displacement_field u o k0 X) /\ in_plane axis (magnetic_field u o k0 X) /\ in_plane axis (magnetizing_field u o k0 X)) /\
  (in_plane axis S -> in_plane axis F -> in_plane axis (electric_field k0 X) /\ in_plane axis (displacement_field u o k0 X) /\ perpendicular axis (magnetic_field u o k0 X) /\ perpendicular axis (magnetizing_field u o k0 X)) /\
  (perpendicular axis S /\ perpendicular axis F \/ in_plane axis S /\ in_plane axis F -> forall p, poynting u o k0 X axis p = 0%R).
Proof.
  intros [Hg Hax] He Hx Hz Hm o X. apply shaped_straight in He, Hm. apply shaped_turning in Hx, Hz; try assumption.
  unfold X, o, construct. destruct (choose _ _ _ _ _ _ _ _ _ _) as [alpha beta]. set (g' := {| rshape := rshape g; rstep := map (Rmult k0) (rstep g) |}). assert (Hg' : (rndim g' <= axis)%nat) by exact Hg.
  set (mag := is_magnetic _ _ _ _).
  pose proof (fun b F => plane_iter axis Hax g' Hg' mag alpha beta epsilon xi zeta mu S He Hx Hz Hm b F i) as I.
  pose proof (plane_E axis) as E. pose proof (fun b k0 F => plane_B axis Hax g' Hg' mag alpha beta epsilon xi zeta mu S b u k0 F) as B. pose proof (fun b k0 F => plane_H axis Hax g' Hg' mag alpha beta epsilon xi zeta mu S Hz Hm b u k0 F) as H. pose proof (fun b k0 F => plane_D axis Hax g' Hg' mag alpha beta epsilon xi zeta mu S Hz Hm b u k0 F) as D.
  pose proof (fun b k0 F p => plane_S axis Hax g' Hg' mag alpha beta epsilon xi zeta mu S Hz Hm b u k0 F p) as P.
  pose proof (fun F => polar_in_plane axis Hax F) as PI_. pose proof (fun F => polar_perpendicular axis F) as PP. cbn [negb] in *.
  split; [|split].
  - intros S1 F1. apply PP in S1, F1. pose proof (I true F S1 F1) as Q. refine (conj _ (conj _ (conj _ _))); [apply PP, (E true), Q|apply PP, (D true); assumption|apply PI_, (B true), Q|apply PI_, (H true), Q].
  - intros S1 F1. apply PI_ in S1, F1. pose proof (I false F S1 F1) as Q. refine (conj _ (conj _ (conj _ _))); [apply PI_, (E false), Q|apply PI_, (D false); assumption|apply PP, (B false), Q|apply PP, (H false), Q].
  - intros [[S1 F1]|[S1 F1]] p; [apply PP in S1, F1; exact (P true _ _ p (I true F S1 F1))|apply PI_ in S1, F1; exact (P false _ _ p (I false F S1 F1))].
Qed.
