(** Proofs for the superposition of beams: C188. *)
From Coq Require Import Reals List Arith Bool ZArith Lia Lra FunctionalExtensionality.
Require Import Verif.Base Verif.CSum Verif.Field Verif.Fourier_Model Verif.Fourier_Spec Verif.Fourier_Proofs Verif.Vec_Model Verif.Modes_Model Verif.Modes_Proofs.
Require Import Verif.Beam_Model Verif.Beam_Spec Verif.Beam_Proofs Verif.Beam_Media Verif.Reflect_Proofs Verif.Superpose_Spec Verif.Cplx.
Import ListNotations.
Local Open Scope R_scope.
Local Open Scope C_scope.

Section Superpose.
  Variables (b : setup) (x y : C).
  Notation sh := (bshape b).
  Definition joint (s1 s2 t : section) : Prop := field_hat t = superposed x y (field_hat s1) (field_hat s2) /\ pending t = pending s1 /\ pending s2 = pending s1.
  Ltac ext := apply functional_extensionality; intros ?c; apply functional_extensionality; intros ?q.

  Lemma settle_joint s1 s2 t : joint s1 s2 t -> joint (settle b s1) (settle b s2) (settle b t).
  Proof.
    intros (F & P & P2). unfold settle. rewrite P2, P. destruct (tiny _); [split; [exact F|split; assumption]|]. split; [|split; reflexivity]. cbn [field_hat]. rewrite F. ext. unfold superposed. rewrite ?P2, ?P. ring.
  Qed.
  Lemma read_joint s1 s2 t : joint s1 s2 t -> read_ft b t = superposed x y (read_ft b s1) (read_ft b s2).
  Proof. intros J. exact (proj1 (settle_joint s1 s2 t J)). Qed.
  Lemma sight_negligible F : in_sight b F -> extended b = true -> negligible b F = false.
  Proof.
    intros [V|V] X; [exact (visible_spec b F V)|]. exfalso. unfold extended in X. rewrite V in X. discriminate.
  Qed.
  Lemma read_field_joint s1 s2 t : joint s1 s2 t -> in_sight b (read_ft b s1) -> in_sight b (read_ft b s2) -> in_sight b (read_ft b t) -> read_field b t = superposed x y (read_field b s1) (read_field b s2).
  Proof.
    intros J V1 V2 V. pose proof (read_joint s1 s2 t J) as R. ext. unfold superposed, read_field. destruct (extended b) eqn:X.
    - rewrite !sight_negligible by assumption. rewrite R. rewrite <- !ift_scal, <- ift_plus. f_equal. apply functional_extensionality. intros k. unfold superposed. ring.
    - rewrite R. reflexivity.
  Qed.
  Lemma set_ft_joint F H : joint (set_ft b F) (set_ft b H) (set_ft b (superposed x y F H)).
  Proof.
    split; [|split; reflexivity]. cbn [set_ft field_hat]. ext. unfold project, superposed. destruct (1 <? bcomp b)%nat; [|reflexivity].
    rewrite (csum_ext 3 _ (fun i => x * (k_dir b i q * F i q) + y * (k_dir b i q * H i q))) by (intros; ring). rewrite csum_plus, !csum_scal. ring.
  Qed.
  Lemma set_field_joint f h : joint (set_field b f) (set_field b h) (set_field b (superposed x y f h)).
  Proof.
    unfold set_field. destruct (extended b); [|apply set_ft_joint].
    replace (fun c q => ft sh (superposed x y f h c) q * Cconj (shift_ft b q)) with (superposed x y (fun c q => ft sh (f c) q * Cconj (shift_ft b q)) (fun c q => ft sh (h c) q * Cconj (shift_ft b q))); [apply set_ft_joint|].
    ext. unfold superposed. rewrite ft_plus, !ft_scal. ring.
  Qed.
  Lemma move_joint s1 s2 t d : joint s1 s2 t -> joint (move s1 d) (move s2 d) (move t d).
  Proof. intros (F & P & P2). split; [exact F|]. cbn. rewrite P, P2. split; reflexivity. Qed.
  Lemma interact_joint s1 s2 t d n : joint s1 s2 t -> uniform b n = true \/ in_sight b (read_ft b s1) /\ in_sight b (read_ft b s2) /\ in_sight b (read_ft b t) ->
    joint (interact b s1 d n) (interact b s2 d n) (interact b t d n).
  Proof.
    intros J V. unfold interact. destruct (uniform b n).
    - destruct (tiny _); [exact J|]. destruct J as (F & P & P2). split; [|split; assumption]. cbn [field_hat]. rewrite F. ext. unfold superposed. ring.
    - destruct V as [V|(V1 & V2 & V)]; [discriminate|].
      replace (fun c p => read_field b t c p * cexp (Ci * bk b * excess b (n p) * RtoC d)) with
        (superposed x y (fun c p => read_field b s1 c p * cexp (Ci * bk b * excess b (n p) * RtoC d)) (fun c p => read_field b s2 c p * cexp (Ci * bk b * excess b (n p) * RtoC d))); [apply set_field_joint|].
      ext. rewrite (read_field_joint s1 s2 t J V1 V2 V). unfold superposed. ring.
  Qed.

  (** ** Histories *)
  Lemma flat_uniform d n : flat_medium sh (Propagate d (Some n)) -> uniform b n = true.
  Proof.
    intros V. apply uniform_true. intros p Hp. cbn in V. rewrite (V p Hp). fold origin. replace (n origin - n origin) with (RtoC 0) by ring. rewrite Cmod_0. pose proof (Cmod_ge_0 (n origin)). lra.
  Qed.
  Lemma propagate_joint s1 s2 t d m : joint s1 s2 t ->
    (forall n, m = Some n -> uniform b n = true \/ in_sight b (read_ft b (if Rltb d 0 then move s1 d else s1)) /\ in_sight b (read_ft b (if Rltb d 0 then move s2 d else s2)) /\ in_sight b (read_ft b (if Rltb d 0 then move t d else t))) ->
    joint (propagate b s1 d m) (propagate b s2 d m) (propagate b t d m).
  Proof.
    intros J V. unfold propagate.
    assert (joint (if Rltb d 0 then move s1 d else s1) (if Rltb d 0 then move s2 d else s2) (if Rltb d 0 then move t d else t)) as J1 by (destruct (Rltb d 0); [apply move_joint|]; exact J).
    destruct m as [n|].
    - pose proof (interact_joint _ _ _ d n J1 (V n eq_refl)) as J2. destruct (Rltb 0 d); [apply move_joint|]; exact J2.
    - destruct (Rltb 0 d); [apply move_joint|]; exact J1.
  Qed.
  Lemma act_flat s1 s2 t a : flat_medium sh a -> joint s1 s2 t -> joint (act b s1 a) (act b s2 a) (act b t a).
  Proof.
    intros A J. destruct a as [d m| | |F|f]; try contradiction; cbn [act]; [|apply settle_joint, J..].
    apply propagate_joint; [exact J|]. intros n ->. left. exact (flat_uniform d n A).
  Qed.
  Lemma run_flat l : Forall (flat_medium sh) l -> forall s1 s2 t, joint s1 s2 t -> joint (run b s1 l) (run b s2 l) (run b t l).
  Proof. intros H. induction H as [|a l A H IH]; intros s1 s2 t J; [exact J|]. unfold run in *. cbn [fold_left]. apply IH, act_flat; assumption. Qed.

  Section Real.
  Variable k : R.
  Hypothesis (K : (0 < k)%R) (BK : bk b = RtoC k) (G : section_grid (bgrid b) (baxis b)).
  Lemma moved_mod s d c q : Cmod (field_hat (settle b (move s d)) c q) = Cmod (field_hat (settle b s) c q).
  Proof using K BK G.
    unfold settle. destruct (tiny (Rabs (pending s))), (tiny (Rabs (pending (move s d)))); cbn [field_hat move]; rewrite ?Cmod_mult, ?(propagator_real b k) by assumption; rewrite ?cis_mod, ?Rmult_1_r; reflexivity.
  Qed.
  Lemma moved_sight s d : in_sight b (read_ft b s) -> in_sight b (read_ft b (move s d)).
  Proof using K BK G.
    intros [(c & q & Hc & Hq & L)|L]; [left|right; exact L]. exists c, q. split; [exact Hc|]. split; [exact Hq|]. unfold read_ft in *. rewrite moved_mod. exact L.
  Qed.
  Lemma act_joint s1 s2 t a : passes a -> joint s1 s2 t -> in_sight b (read_ft b s1) /\ in_sight b (read_ft b s2) /\ in_sight b (read_ft b t) -> joint (act b s1 a) (act b s2 a) (act b t a).
  Proof using K BK G.
    intros A J (V1 & V2 & V). destruct a as [d m| | |F|f]; try contradiction; cbn [act]; [|apply settle_joint, J..].
    apply propagate_joint; [exact J|]. intros n _. right. destruct (Rltb d 0); [|auto]. split; [|split]; apply moved_sight; assumption.
  Qed.
  Lemma run_joint l : Forall passes l -> forall s1 s2 t, joint s1 s2 t ->
    (forall i, (i <= length l)%nat -> in_sight b (read_ft b (run b s1 (firstn i l))) /\ in_sight b (read_ft b (run b s2 (firstn i l))) /\ in_sight b (read_ft b (run b t (firstn i l)))) ->
    joint (run b s1 l) (run b s2 l) (run b t l) /\ read_field b (run b t l) = superposed x y (read_field b (run b s1 l)) (read_field b (run b s2 l)).
  Proof using K BK G.
    intros H. induction H as [|a l A H IH]; intros s1 s2 t J V.
    - split; [exact J|]. destruct (V 0%nat (le_n 0)) as (V1 & V2 & V3). apply read_field_joint; assumption.
    - unfold run in *. cbn [fold_left]. apply IH.
      + apply act_joint; [exact A|exact J|exact (V 0%nat ltac:(cbn; lia))].
      + intros i Hi. exact (V (Datatypes.S i) ltac:(cbn; lia)).
  Qed.
  End Real.
End Superpose.

(** ** A beam that is too weak *)
Definition faint : setup := {| bgrid := {| rshape := [1; 1; 2]%nat; rstep := [1%R; 0%R; 1%R] |}; bfirst := fun _ => 0%R; bk := RtoC 1; bn := RtoC 1; baxis := 0; bcomp := 1 |}.
Definition speck : vfield := fun c p => if idx_eqb p [0; 0; 0]%nat then RtoC (/ 100000000) else 0.
Lemma faint_grid : section_grid (bgrid faint) (baxis faint).
Proof. repeat split; try (cbn; lia); try (repeat constructor; lia). intros c Hc H1. destruct c as [|[|[|]]]; cbn in *; lia || lra. Qed.
Lemma faint_shift q : shift_ft faint q = 1.
Proof. unfold shift_ft. rewrite rsum3. cbn [faint bfirst]. replace (_ + _)%R with 0%R by ring. apply cis_0. Qed.
Lemma faint_index q : inside (bshape faint) q -> q = [0; 0; 0]%nat \/ q = [0; 0; 1]%nat.
Proof.
  intros H. apply indices_inside in H. cbn in H. destruct H as [<-|[<-|[]]]; auto.
Qed.
Lemma faint_ft s f a : f 0%nat [0; 0; 0]%nat = RtoC a -> f 0%nat [0; 0; 1]%nat = 0 -> forall q, inside (bshape faint) q -> read_ft faint (run faint s [SetField f]) 0%nat q = RtoC a.
Proof.
  intros F0 F1 q Hq. unfold run. cbn [fold_left act]. unfold set_field. change (extended faint) with true. cbv iota. unfold read_ft, settle. cbn [set_ft pending field_hat]. rewrite Rabs_R0, (proj2 (tiny_true 0)) by lra. unfold set_ft at 1. cbn [field_hat].
  unfold project. change (1 <? bcomp faint)%nat with false. cbv beta iota. rewrite faint_shift. assert (Cconj 1 = 1) as -> by (unfold Cconj, RtoC; cbn; f_equal; ring).
  destruct (couple_ft (f 0%nat)) as [E1 E0]. rewrite F0, F1 in E1, E0. change (bshape couple) with (bshape faint) in *. destruct (faint_index q Hq) as [-> | ->]; [rewrite E0|rewrite E1]; ring.
Qed.
Lemma faint_lost s : read_field faint (run faint s [SetField speck]) = fun c p => 0.
Proof.
  apply functional_extensionality. intros c. apply functional_extensionality. intros p. unfold read_field. change (extended faint) with true. cbv iota.
  replace (negligible faint _) with true; [reflexivity|]. symmetry. apply negligible_spec. intros c' q Hc Hq. change (bcomp faint) with 1%nat in Hc. assert (c' = 0%nat) as -> by lia.
  rewrite (faint_ft s speck (/ 100000000)) by (reflexivity || exact Hq). rewrite Cmod_R, Rabs_right; lra.
Qed.
