(** The arrays that the properties of a Solution return. *)
From Coq Require Import Reals List Arith Bool ZArith Lia FunctionalExtensionality.
Require Import Verif.Base Verif.Cplx Verif.CSum Verif.Field Verif.Fourier_Model Verif.Vec_Model Verif.Solver_Model Verif.Derived_Model Verif.Run_Model.
Require Import Verif.Memory_Model Verif.Memory_Spec Verif.Memory_Proofs Verif.Memory_Steps.
Import ListNotations.
Local Open Scope R_scope.
Local Open Scope C_scope.

Definition sourced (o : ops) (src : vfield) : ops :=
  {| o_grid := o_grid o; o_vectorial := o_vectorial o; o_magnetic := o_magnetic o; o_alpha := o_alpha o; o_beta := o_beta o;
     o_chiEE := o_chiEE o; o_chiEH := o_chiEH o; o_chiHE := o_chiHE o; o_chiHH := o_chiHH o; o_source := src |}.

Section Reads.
  Variables (lib : library) (aligned : loc -> bool) (junk : nat -> vfield).
  Variables (u : si) (o : ops) (k0 : R).
  Notation sharing := (shared lib).

  Lemma me_e : forall (P : loc -> Prop) h, safe P h -> returns P h (e_m k0 h) (electric_field k0 (content h Field)) True.
  Proof. intros P h S. unfold e_m, bindm, get. now apply me_new_returns. Qed.
  Lemma me_source : forall (P : loc -> Prop) h, safe P h -> returns P h (source_m o h) (source_distribution (sourced o (content h Source))) True.
  Proof. intros P h S. unfold source_m, bindm, get. now apply me_new_returns. Qed.
  Lemma me_j : forall (P : loc -> Prop) h, safe P h -> returns P h (j_m u o k0 h) (current_density u (sourced o (content h Source)) k0) True.
  Proof.
    intros P h S. unfold j_m, bindm, get. destruct (me_source P h S) as (x & h1 & E1 & L1 & V1 & _). rewrite E1.
    eapply me_returns_after; [exact L1|]. rewrite V1. apply me_new_returns. exact (proj1 L1).
  Qed.
  Lemma me_b : forall (P : loc -> Prop) h, safe P h ->
    returns P h (b_m lib aligned junk u o k0 h) (magnetic_field u o k0 (content h Field)) True.
  Proof.
    intros P h S. unfold b_m, bindm. destruct (me_e P h S) as (e & h1 & E1 & L1 & V1 & N1 & H1 & A1 & _). rewrite E1.
    destruct (me_curl lib aligned junk P h1 o e (proj1 L1) N1 A1 H1) as (c & h2 & E2 & L2 & V2 & _). rewrite E2. unfold get.
    eapply me_returns_after; [exact L1|]. eapply me_returns_after; [exact L2|]. rewrite V2, V1. apply me_new_returns. exact (proj1 L2).
  Qed.
  Lemma me_h : forall (P : loc -> Prop) h, safe P h -> P Field ->
    returns P h (h_m lib aligned junk u o k0 h) (magnetizing_field u o k0 (content h Field)) True.
  Proof.
    intros P h S PF. unfold h_m, magnetizing_field. destruct (o_magnetic o).
    - unfold bindm. destruct (me_e P h S) as (e & h1 & E1 & L1 & V1 & N1 & H1 & A1 & _). rewrite E1.
      destruct (me_curl lib aligned junk P h1 o e (proj1 L1) N1 A1 H1) as (c & h2 & E2 & L2 & V2 & _). rewrite E2. unfold get.
      set (t := tapply _ (content h2 c)). destruct (me_new_returns P h2 t (proj1 L2)) as (x & h3 & E3 & L3 & V3 & N3 & H3 & _ & _ & P3). rewrite E3.
      specialize (P3 I).
      destruct (me_e (also P x) h3 (proj1 P3)) as (e' & h4 & E4 & L4 & V4 & _). rewrite E4.
      set (t' := tapply _ (content h4 e')).
      destruct (me_new_returns (also P x) h4 t' (proj1 L4)) as (y & h5 & E5 & L5 & V5 & _). rewrite E5.
      assert (VF3 : content h3 Field = content h Field).
      { rewrite (proj1 (proj2 L3) Field PF), (proj1 (proj2 L2) Field PF), (proj1 (proj2 L1) Field PF). reflexivity. }
      rewrite (proj1 (proj2 L5) x) by apply me_also_r. rewrite (proj1 (proj2 L4) x) by apply me_also_r. rewrite V3, V5.
      unfold t, t'. rewrite V4, V2, V1, VF3.
      eapply me_returns_after; [exact L1|]. eapply me_returns_after; [exact L2|]. eapply me_returns_after; [exact L3|].
      eapply me_returns_after; [eapply me_leaves_weaken; [|exact L4]; apply me_also_l|].
      eapply me_returns_after; [eapply me_leaves_weaken; [|exact L5]; apply me_also_l|].
      apply me_new_returns. eapply me_safe_weaken; [|exact (proj1 L5)]; apply me_also_l.
    - unfold bindm. destruct (me_e P h S) as (e & h1 & E1 & L1 & V1 & N1 & H1 & A1 & _). rewrite E1.
      destruct (me_curl lib aligned junk P h1 o e (proj1 L1) N1 A1 H1) as (c & h2 & E2 & L2 & V2 & _). rewrite E2. unfold get.
      match goal with |- context [new ?f h2] => destruct (me_new_returns P h2 f (proj1 L2)) as (x & h3 & E3 & L3 & V3 & _) end. rewrite E3.
      rewrite V3, V2, V1. eapply me_returns_after; [exact L1|]. eapply me_returns_after; [exact L2|]. eapply me_returns_after; [exact L3|].
      apply me_new_returns. exact (proj1 L3).
  Qed.
  Lemma me_private_change1 : forall (P : loc -> Prop) h l f, safe P h -> ~ P l -> (forall a : Prop, (a -> leaves (also P l) h h) ->
    forall h', change1 l f h = (tt, h') -> a -> leaves (also P l) h' h').
  Proof.
    intros P h l f S N a Ha h' E A. apply Ha in A. unfold change1, bindm, get, put in E. injection E as E. subst h'.
    destruct A as (S' & _ & _). split; [|split; [apply me_keeps_refl | lia]]. destruct S'. constructor; auto.
  Qed.
  Lemma me_private_change : forall (P : loc -> Prop) h l y f, (forall a : Prop, (a -> leaves (also P l) h h) ->
    forall h', change l y f h = (tt, h') -> a -> leaves (also P l) h' h').
  Proof.
    intros P h l y f a Ha h' E A. apply Ha in A. unfold change, bindm, get, put in E. injection E as E. subst h'.
    destruct A as (S' & _ & _). split; [|split; [apply me_keeps_refl | lia]]. destruct S'. constructor; auto.
  Qed.
  Lemma me_d : forall (P : loc -> Prop) h, safe P h -> P Field -> P Source ->
    returns P h (d_m lib aligned junk u o k0 h) (displacement_field u (sourced o (content h Source)) k0 (content h Field)) (sharing (shape o) true = false).
  Proof.
    intros P h S PF PS. unfold d_m, bindm. destruct (me_h P h S PF) as (x & h1 & E1 & L1 & V1 & N1 & H1 & A1 & _). rewrite E1.
    destruct (me_curl lib aligned junk P h1 o x (proj1 L1) N1 A1 H1) as (d & h2 & E2 & L2 & V2 & N2 & H2 & A2 & B2 & P2). rewrite E2.
    destruct (me_change1 P h2 d (fun F => times F (RtoC k0)) (proj1 L2) N2) as (h3 & E3 & L3 & V3 & K3 & C3 & _). rewrite E3.
    pose proof (me_private_change1 P h2 d _ (proj1 L2) N2 _ P2 h3 E3) as P3.
    match goal with |- context [change d Source ?f h3] =>
      destruct (me_change P h3 d Source f (proj1 L3) N2) as (h4 & E4 & L4 & V4 & K4 & C4 & _); pose proof (me_private_change P h3 d Source f _ P3 h4 E4) as P4 end.
    rewrite E4.
    destruct (me_change1 P h4 d (fun F => times F (Ci / RtoC (angular_frequency u k0))) (proj1 L4) N2) as (h5 & E5 & L5 & V5 & K5 & C5 & _). rewrite E5.
    pose proof (me_private_change1 P h4 d _ (proj1 L4) N2 _ P4 h5 E5) as P5.
    assert (T3 : leaves P h h3) by (eapply me_leaves_trans; [exact L1|]; eapply me_leaves_trans; eauto).
    exists d, h5. split; [reflexivity|]. split; [eapply me_leaves_trans; [exact T3|]; eapply me_leaves_trans; eauto|].
    split; [rewrite V5, V4, V3, V2, V1, (proj1 (proj2 T3) Source PS); reflexivity|].
    split; [exact N2|]. split; [eapply me_here_le; [|exact H2]; rewrite C5, C4, C3; lia|]. tauto.
  Qed.
  Lemma me_s : forall (P : loc -> Prop) h, safe P h -> P Field ->
    returns P h (s_m lib aligned junk u o k0 h) (fun c p => RtoC (poynting u o k0 (content h Field) c p)) True.
  Proof.
    intros P h S PF. unfold s_m, bindm. destruct (me_e P h S) as (e & h1 & E1 & L1 & V1 & N1 & H1 & A1 & B1 & P1). rewrite E1.
    specialize (P1 I). destruct (me_h (also P e) h1 (proj1 P1) (me_also_l _ _ _ PF)) as (x & h2 & E2 & L2 & V2 & _). rewrite E2. unfold get.
    rewrite (proj1 (proj2 L2) e) by apply me_also_r. rewrite V2, V1, (proj1 (proj2 L1) Field PF).
    eapply me_returns_after; [exact L1|]. eapply me_returns_after; [eapply me_leaves_weaken; [|exact L2]; apply me_also_l|].
    apply me_new_returns. eapply me_safe_weaken; [|exact (proj1 L2)]; apply me_also_l.
  Qed.
  Lemma me_stress : forall (P : loc -> Prop) h, safe P h -> P Field ->
    returns P h (stress_m lib aligned junk u o k0 h) (fun ij p => RtoC (stress_tensor u o k0 (content h Field) (ij mod 3) (ij / 3) p)) True.
  Proof.
    intros P h S PF. unfold stress_m, bindm. destruct (me_e P h S) as (e & h1 & E1 & L1 & V1 & N1 & H1 & A1 & B1 & P1). rewrite E1.
    specialize (P1 I). destruct (me_h (also P e) h1 (proj1 P1) (me_also_l _ _ _ PF)) as (x & h2 & E2 & L2 & V2 & _). rewrite E2. unfold get.
    rewrite (proj1 (proj2 L2) e) by apply me_also_r. rewrite V2, V1, (proj1 (proj2 L1) Field PF).
    eapply me_returns_after; [exact L1|]. eapply me_returns_after; [eapply me_leaves_weaken; [|exact L2]; apply me_also_l|].
    apply me_new_returns. eapply me_safe_weaken; [|exact (proj1 L2)]; apply me_also_l.
  Qed.
  Lemma me_energy : forall (P : loc -> Prop) h, safe P h -> P Field -> P Source ->
    returns P h (energy_m lib aligned junk u o k0 h)
      (fun _ p => RtoC (energy_density u (sourced o (content h Source)) k0 (content h Field) p)) True.
  Proof.
    intros P h S PF PS. unfold energy_m, bindm. destruct (me_e P h S) as (e & h1 & E1 & L1 & V1 & N1 & H1 & A1 & B1 & P1). rewrite E1. specialize (P1 I).
    destruct (me_b (also P e) h1 (proj1 P1)) as (b & h2 & E2 & L2 & V2 & N2 & H2 & _ & _ & P2). rewrite E2. specialize (P2 I).
    destruct (me_h (also (also P e) b) h2 (proj1 P2)) as (x & h3 & E3 & L3 & V3 & N3 & H3 & _ & _ & P3). { left; left; exact PF. } rewrite E3. specialize (P3 I).
    destruct (me_d (also (also (also P e) b) x) h3 (proj1 P3)) as (d & h4 & E4 & L4 & V4 & _); try (left; left; left; assumption). rewrite E4. unfold get.
    assert (F1 : content h1 Field = content h Field) by exact (proj1 (proj2 L1) Field PF).
    assert (F2 : content h2 Field = content h Field) by (rewrite (proj1 (proj2 L2) Field (or_introl PF)); exact F1).
    assert (F3 : content h3 Field = content h Field) by (rewrite (proj1 (proj2 L3) Field (or_introl (or_introl PF))); exact F2).
    assert (S3 : content h3 Source = content h Source).
    { rewrite (proj1 (proj2 L3) Source (or_introl (or_introl PS))), (proj1 (proj2 L2) Source (or_introl PS)). exact (proj1 (proj2 L1) Source PS). }
    assert (Ve : content h4 e = electric_field k0 (content h Field)).
    { rewrite (proj1 (proj2 L4) e) by (left; left; right; reflexivity). rewrite (proj1 (proj2 L3) e) by (left; right; reflexivity).
      rewrite (proj1 (proj2 L2) e) by (right; reflexivity). exact V1. }
    assert (Vb : content h4 b = magnetic_field u o k0 (content h Field)).
    { rewrite (proj1 (proj2 L4) b) by (left; right; reflexivity). rewrite (proj1 (proj2 L3) b) by (right; reflexivity). rewrite V2, F1. reflexivity. }
    assert (Vx : content h4 x = magnetizing_field u o k0 (content h Field)).
    { rewrite (proj1 (proj2 L4) x) by (right; reflexivity). rewrite V3, F2. reflexivity. }
    rewrite Ve, Vb, Vx, V4, S3, F3.
    eapply me_returns_after; [exact L1|]. eapply me_returns_after; [eapply me_leaves_weaken; [|exact L2]; intros; now left|].
    eapply me_returns_after; [eapply me_leaves_weaken; [|exact L3]; intros; left; now left|].
    eapply me_returns_after; [eapply me_leaves_weaken; [|exact L4]; intros; left; left; now left|].
    apply me_new_returns. eapply me_safe_weaken; [|exact (proj1 L4)]; intros; left; left; now left.
  Qed.

  (** The properties that can raise an exception. *)
  Definition returns_or_fails (P : loc -> Prop) (h : heap) (x : result loc * heap) (v : result vfield) (private : Prop) : Prop :=
    match v with
    | Ok f => match x with (Ok r, h') => returns P h (r, h') f private | _ => False end
    | Err e => match x with (Err e', h') => e = e' /\ leaves P h h' | _ => False end
    end.
  Lemma me_divs : forall (P : loc -> Prop) h, safe P h -> P Field ->
    returns_or_fails P h (divs_m lib aligned junk u o k0 h) (rmap (fun r _ => r) (div_poynting u o k0 (content h Field)))
      (sharing (shape o) (vector_length o =? 1)%nat = false).
  Proof.
    intros P h S PF. unfold divs_m, div_m, bindm, div_poynting, div.
    destruct (me_s P h S PF) as (x & h1 & E1 & L1 & V1 & N1 & H1 & A1 & _). rewrite E1.
    destruct (me_ft lib aligned junk P h1 (shape o) true x (proj1 L1) N1 A1 H1) as (f & h2 & E2 & L2 & V2 & _). rewrite E2. unfold get.
    rewrite V2, V1. unfold shape at 1. destruct (div_ft _ _ _) as [r|e]; simpl.
    - destruct (me_new P h2 (fun _ => r) (proj1 L2)) as (h3 & E3 & L3 & K3 & C3 & V3 & N3 & _). unfold new in *. injection E3 as E3. rewrite E3 in *.
      set (c := New (created h2)) in *.
      assert (T3 : leaves P h2 h3) by (split; [eapply me_safe_weaken; [|exact (proj1 L3)]; apply me_also_l|]; split; [exact K3 | lia]).
      destruct (me_ift lib aligned junk P h3 (shape o) (vector_length o =? 1)%nat c (proj1 T3) N3) as (y & h4 & E4 & L4 & V4 & N4 & H4 & A4 & B4 & P4).
      { discriminate. } { simpl. lia. }
      rewrite E4. exists y, h4. split; [reflexivity|].
      split; [eapply me_leaves_trans; [exact L1|]; eapply me_leaves_trans; [exact L2|]; eapply me_leaves_trans; eauto|].
      split; [rewrite V4, V3; reflexivity|]. tauto.
    - split; [reflexivity|]. eapply me_leaves_trans; eauto.
  Qed.
  Lemma me_force : forall (P : loc -> Prop) h, safe P h -> P Field ->
    returns_or_fails P h (force_m lib aligned junk u o k0 h)
      (rmap (fun _ j p => match force_density u o k0 (content h Field) j with Ok f => RtoC (f p) | Err _ => RtoC 0 end)
        (force_density u o k0 (content h Field) 0)) True.
  Proof.
    intros P h S PF. unfold force_m, bindm.
    destruct (me_stress P h S PF) as (x & h1 & E1 & L1 & V1 & N1 & H1 & A1 & _). rewrite E1.
    destruct (me_ft lib aligned junk P h1 (shape o) (vector_length o =? 1)%nat x (proj1 L1) N1 A1 H1) as (f & h2 & E2 & L2 & V2 & _). rewrite E2. unfold get.
    destruct (Nat.ltb (vector_length o) (rndim (o_grid o))) eqn:Q.
    - assert (FD : force_density u o k0 (content h Field) 0 = Err IndexError) by (unfold force_density, div, div_ft; rewrite Q; reflexivity).
      rewrite FD. split; [reflexivity|]. eapply me_leaves_trans; eauto.
    - assert (FD : forall j, force_density u o k0 (content h Field) j = Ok (fun p => (fst (ift (rshape (o_grid o)) (fun q => csum (rndim (o_grid o)) (fun d =>
        Ci * RtoC (kvec (o_grid o) d q) * vft (rshape (o_grid o)) (fun i p => RtoC (stress_tensor u o k0 (content h Field) i j p)) d q)%C) p) * k0)%R)).
      { intros j. unfold force_density, div, div_ft. rewrite Q. reflexivity. }
      rewrite (FD 0%nat). cbn [rmap returns_or_fails].
      match goal with |- context [new ?f h2] => destruct (me_new_returns P h2 f (proj1 L2)) as (c & h3 & E3 & L3 & V3 & N3 & H3 & A3 & B3 & P3) end.
      assert (Nb : c <> Buffer) by (unfold new in E3; injection E3 as E3 _; rewrite <- E3; discriminate).
      rewrite E3.
      destruct (me_ift lib aligned junk P h3 (shape o) true c (proj1 L3) N3 Nb H3) as (y & h4 & E4 & L4 & V4 & N4 & _). rewrite E4.
      match goal with |- context [new ?f h4] => destruct (me_new_returns P h4 f (proj1 L4)) as (z & h5 & E5 & L5 & V5 & N5 & H5 & A5 & B5 & P5) end.
      rewrite E5. exists z, h5. split; [reflexivity|].
      split; [eapply me_leaves_trans; [exact L1|]; eapply me_leaves_trans; [exact L2|]; eapply me_leaves_trans; [exact L3|]; eapply me_leaves_trans; eauto|].
      split; [|tauto]. rewrite V5. apply functional_extensionality; intros j. apply functional_extensionality; intros p. rewrite (FD j).
      rewrite V4, V3, V2, V1. unfold vift, shape.
      apply (f_equal (fun z : C => RtoC (fst z * k0)%R)). apply (f_equal (fun F => ift (rshape (o_grid o)) F p)).
      apply functional_extensionality; intros q. apply csum_ext. intros d Hd. f_equal.
      apply Nat.ltb_ge in Q.
      assert (D3 : (d < 3)%nat) by (unfold vector_length in Q; destruct (o_vectorial o); lia).
      unfold vft. apply (f_equal (fun F => ft (rshape (o_grid o)) F q)). apply functional_extensionality; intros p'.
      replace ((d + 3 * j) mod 3)%nat with d by (rewrite Nat.mul_comm, Nat.mod_add by lia; rewrite Nat.mod_small; lia).
      replace ((d + 3 * j) / 3)%nat with j by (rewrite Nat.mul_comm, Nat.div_add by lia; rewrite Nat.div_small by lia; lia).
      reflexivity.
  Qed.
  Lemma me_torque : forall (P : loc -> Prop) h, safe P h -> P Field ->
    returns_or_fails P h (torque_m lib aligned junk u o k0 h) (rmap (fun t c p => RtoC (t c p)) (torque u o k0 (content h Field))) True.
  Proof.
    intros P h S PF. unfold torque_m, torque, bindm. destruct (me_stress P h S PF) as (x & h1 & E1 & L1 & V1 & _). destruct (o_vectorial o); rewrite E1; cbn -[new].
    - unfold get. match goal with |- context [new ?f h1] => destruct (me_new_returns P h1 f (proj1 L1)) as (z & h2 & E2 & L2 & V2 & N2 & H2 & A2 & B2 & P2) end.
      rewrite E2. exists z, h2. split; [reflexivity|]. split; [eapply me_leaves_trans; eauto|].
      split; [rewrite V2, V1; apply functional_extensionality; intros [|[|c]]; reflexivity|]. tauto.
    - split; [reflexivity | exact L1].
  Qed.
End Reads.
