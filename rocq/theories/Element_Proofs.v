(** Proofs about the construction of matrices and assignments to their elements. *)
From Coq Require Import Reals Lra Lia List Arith ZArith Bool.
Require Import Verif.Base Verif.Cplx Verif.CSum Verif.Element_Model Verif.Element_Spec.
Import ListNotations.

Lemma product_multiplies m t :
  content m = Some t -> m_rows m = t_rows t -> m_cols m = t_cols t -> multiplies m (t_rows t) (t_cols t) (t_at t).
Proof.
  intros Hc Hr Hk. refine (conj Hr (conj Hk (conj _ _))).
  - intro v. exists (fun i => csum (t_cols t) (fun j => t_at t i j * v j)%C). split; [|reflexivity].
    unfold product. rewrite Hk, Nat.eqb_refl, Hc, Nat.eqb_refl, Hr, Nat.eqb_refl. reflexivity.
  - intros n v Hn. unfold product. rewrite Hk. apply Nat.eqb_neq in Hn. rewrite Hn. reflexivity.
Qed.

Lemma matrix_multiplies x t :
  x = GivenArray t \/ x = GivenLists t ->
  (exists m, matrix_of x None = Ok m /\ multiplies m (t_rows t) (t_cols t) (t_at t))
  /\ (exists m, matrix_of x (Some (t_rows t, t_cols t)) = Ok m /\ multiplies m (t_rows t) (t_cols t) (t_at t)).
Proof.
  intros [-> | ->]; split; eexists; (split; [reflexivity|]); apply product_multiplies; reflexivity.
Qed.
Lemma matrix_useless x t r c :
  x = GivenArray t \/ x = GivenLists t -> (r, c) <> (t_rows t, t_cols t) ->
  exists m, matrix_of x (Some (r, c)) = Ok m /\ m_rows m = r /\ m_cols m = c /\ useless m.
Proof.
  intros Hx Hs. eexists. split; [reflexivity|]. split; [reflexivity|]. split; [reflexivity|].
  intros n v. exists ValueError. unfold product. cbn [m_cols]. destruct (Nat.eqb_spec n c) as [Hn|]; [|reflexivity].
  destruct Hx as [-> | ->]; unfold content; cbn [m_held]; (destruct (Nat.eqb_spec (t_cols t) n) as [Hc|]; [|reflexivity]);
    cbn [m_rows]; (destruct (Nat.eqb_spec (t_rows t) r) as [Hr|]; [|reflexivity]); exfalso; apply Hs; congruence.
Qed.

Lemma square_multiplies x t side :
  x = GivenArray t \/ x = GivenLists t -> t_rows t = t_cols t -> side = None \/ side = Some (t_rows t) ->
  exists m, square_of x side = Ok m /\ multiplies m (t_rows t) (t_rows t) (t_at t).
Proof.
  intros Hx Hsq Hs.
  destruct Hx as [-> | ->]; destruct Hs as [-> | ->]; cbn [square_of]; rewrite <- Hsq, Nat.eqb_refl; eexists; (split; [reflexivity|]);
    match goal with |- multiplies ?m _ _ _ =>
      let G := fresh in assert (G : multiplies m (t_rows t) (t_cols t) (t_at t)) by (apply product_multiplies; [reflexivity|reflexivity|exact Hsq]);
      rewrite <- Hsq in G; exact G end.
Qed.
Lemma square_rejects x t :
  x = GivenArray t \/ x = GivenLists t ->
  (t_rows t <> t_cols t -> square_of x None = Err ValueError) /\ (forall n, n <> t_cols t -> square_of x (Some n) = Err ValueError).
Proof.
  intro Hx. split; [intro H | intros n H]; apply not_eq_sym, Nat.eqb_neq in H; destruct Hx as [-> | ->]; cbn [square_of]; rewrite H; reflexivity.
Qed.
Lemma square_useless x t :
  x = GivenArray t \/ x = GivenLists t -> t_rows t <> t_cols t ->
  exists m, square_of x (Some (t_cols t)) = Ok m /\ m_rows m = t_cols t /\ useless m.
Proof.
  intros Hx H.
  destruct Hx as [-> | ->]; cbn [square_of]; rewrite Nat.eqb_refl; eexists; (split; [reflexivity|]; split; [reflexivity|]);
    intros n v; exists ValueError; unfold product, content; cbn [m_cols m_rows m_held]; (destruct (Nat.eqb_spec n (t_cols t)) as [->|]; [|reflexivity]);
    rewrite Nat.eqb_refl; apply Nat.eqb_neq in H; rewrite H; reflexivity.
Qed.
Lemma function_useless :
  (forall side, exists e, square_of GivenFunction side = Err e)
  /\ (exists e, matrix_of GivenFunction None = Err e)
  /\ (forall s m, matrix_of GivenFunction (Some s) = Ok m -> useless m).
Proof.
  split; [|split].
  - intros [n|]; eexists; reflexivity.
  - eexists; reflexivity.
  - intros [r c] m H n v. injection H as <-. exists ValueError. unfold product, content. cbn. destruct (Nat.eqb n c); reflexivity.
Qed.

(** ** Elements *)
Lemma unit_sum n j f : (j < n)%nat -> csum n (fun k => f k * unit_column j k)%C = f j.
Proof.
  intro Hj. rewrite <- (csum_delta n j f Hj). apply csum_ext. intros k _. unfold unit_column. destruct (Nat.eqb k j); apply C_eq; cbn; ring.
Qed.
Lemma content_reads m t :
  content m = Some t -> t_rows t = t_cols t -> m_rows m = t_rows t -> m_cols m = t_rows t -> reads m (t_rows t) (t_at t).
Proof.
  intros Hc Hsq Hr Hk i j Hi Hj. split.
  - unfold element. rewrite Hr. apply Nat.ltb_lt in Hi. pose proof Hj as Hj'. apply Nat.ltb_lt in Hj. rewrite Hj. unfold product.
    rewrite Hk, Nat.eqb_refl, Hc, <- Hsq, Nat.eqb_refl, Hr, Nat.eqb_refl. cbn [bind]. rewrite Hi. f_equal. apply unit_sum. exact Hj'.
  - unfold array_element. rewrite Hc, <- Hsq. apply Nat.ltb_lt in Hi. apply Nat.ltb_lt in Hj. rewrite Hi, Hj. reflexivity.
Qed.
Lemma stored_exact k v : holds k v -> stored k v = Ok (v_number v).
Proof.
  destruct v as [s kv x]. unfold holds, stored. cbn [v_kind v_number v_source]. destruct k; [intros [-> H] | intros [H0 H] | reflexivity].
  - f_equal. apply C_eq; cbn; congruence.
  - destruct kv; try congruence; f_equal; apply C_eq; cbn; congruence.
Qed.

(** An invariant for histories: an array of n by n numbers, in the matrix. *)
Definition square_array (m : mat) (k : kind) (n : nat) (A : nat -> nat -> C) : Prop :=
  m_rows m = n /\ m_cols m = n
  /\ exists t, (m_held m = Shared t \/ m_held m = Own t) /\ t_kind t = k /\ t_rows t = n /\ t_cols t = n
     /\ forall i j, (i < n)%nat -> (j < n)%nat -> t_at t i j = A i j.
Lemma square_array_reads m k n A : square_array m k n A -> reads m n A.
Proof.
  intros (Hr & Hc & t & Hh & _ & Htr & Htc & HA) i j Hi Hj.
  assert (G : reads m (t_rows t) (t_at t)) by (apply content_reads; [unfold content; destruct Hh as [-> | ->]; reflexivity|congruence..]).
  rewrite <- HA by assumption. apply G; congruence.
Qed.
Lemma assign_array m k n A a :
  square_array m k n A -> (a_row a < n)%nat -> (a_col a < n)%nat -> holds k (a_value a) ->
  exists m', assign m (a_row a) (a_col a) (a_value a) = Ok m'
    /\ square_array m' k n (fun i j => if (Nat.eqb i (a_row a) && Nat.eqb j (a_col a))%bool then v_number (a_value a) else A i j).
Proof.
  intros (Hr & Hc & t & Hh & Hk & Htr & Htc & HA) Hi Hj Hv.
  assert (P : put_array t (a_row a) (a_col a) (a_value a) = Ok (put t (a_row a) (a_col a) (v_number (a_value a)))).
  { unfold put_array. rewrite Htr, Htc. apply Nat.ltb_lt in Hi. apply Nat.ltb_lt in Hj. rewrite Hi, Hj, Hk, (stored_exact _ _ Hv). reflexivity. }
  assert (Q : forall i j, (i < n)%nat -> (j < n)%nat -> t_at (put t (a_row a) (a_col a) (v_number (a_value a))) i j
              = if (Nat.eqb i (a_row a) && Nat.eqb j (a_col a))%bool then v_number (a_value a) else A i j).
  { intros i j Hi' Hj'. cbn. rewrite HA by assumption. reflexivity. }
  destruct Hh as [Hh | Hh]; unfold assign; rewrite Hh, P; cbn [bind]; eexists; (split; [reflexivity|]);
    (refine (conj Hr (conj Hc _))); eexists; (split; [first [left; reflexivity | right; reflexivity]|]); repeat split; assumption.
Qed.
Lemma assigns_array l : forall m k n A,
  square_array m k n A -> Forall (fun a => (a_row a < n)%nat /\ (a_col a < n)%nat /\ holds k (a_value a)) l ->
  exists m', assigns m l = Ok m' /\ square_array m' k n (fun i j => latest l i j (A i j)).
Proof.
  induction l as [|a l IH]; intros m k n A H F.
  - exists m. split; [reflexivity|exact H].
  - inversion F as [|? ? (F1 & F2 & F3) F4]. subst. destruct (assign_array m k n A a H F1 F2 F3) as (m1 & E1 & H1).
    destruct (IH _ _ _ _ H1 F4) as (m2 & E2 & H2). exists m2. split; [|exact H2]. cbn [assigns]. rewrite E1. exact E2.
Qed.

Lemma element_histories x t l :
  x = GivenArray t \/ x = GivenLists t -> t_rows t = t_cols t ->
  Forall (fun a => (a_row a < t_rows t)%nat /\ (a_col a < t_rows t)%nat /\ holds (t_kind t) (a_value a)) l ->
  exists m m', square_of x None = Ok m /\ reads m (t_rows t) (t_at t)
    /\ assigns m l = Ok m' /\ reads m' (t_rows t) (fun i j => latest l i j (t_at t i j)).
Proof.
  intros Hx Hsq F.
  assert (G : exists m, square_of x None = Ok m /\ square_array m (t_kind t) (t_rows t) (t_at t)).
  { destruct Hx as [-> | ->]; cbn [square_of]; rewrite <- Hsq, Nat.eqb_refl; eexists; (split; [reflexivity|]);
      (split; [reflexivity|]; split; [reflexivity|]); exists t; (split; [first [left; reflexivity | right; reflexivity]|]); repeat split; congruence. }
  destruct G as (m & E & H). destruct (assigns_array _ _ _ _ _ H F) as (m' & E' & H').
  exists m, m'. refine (conj E (conj _ (conj E' _))); eapply square_array_reads; eassumption.
Qed.

Lemma element_outside x t m i j v :
  x = GivenArray t \/ x = GivenLists t -> square_of x None = Ok m -> (t_rows t <= i)%nat \/ (t_rows t <= j)%nat ->
  assign m i j v = Err IndexError.
Proof.
  intros Hx E Hij.
  assert (P : t_rows t = t_cols t -> put_array t i j v = Err IndexError).
  { intro Hsq. unfold put_array. destruct (Nat.ltb_spec i (t_rows t)), (Nat.ltb_spec j (t_cols t)); try reflexivity; lia. }
  destruct Hx as [-> | ->]; cbn [square_of] in E; (destruct (Nat.eqb_spec (t_cols t) (t_rows t)) as [Q|]; [|discriminate]);
    injection E as <-; unfold assign; cbn [m_held]; rewrite P by congruence; reflexivity.
Qed.

Lemma real_lost x t m i j v :
  x = GivenArray t \/ x = GivenLists t -> t_kind t = Reals -> square_of x None = Ok m ->
  (i < t_rows t)%nat -> (j < t_rows t)%nat -> v_kind v = Complexes ->
  (v_source v = FromPython -> assign m i j v = Err TypeError)
  /\ (v_source v = FromNumpy -> exists m', assign m i j v = Ok m' /\ element m' i j = Ok (RtoC (fst (v_number v)))).
Proof.
  intros Hx Hk E Hi Hj Hv.
  assert (Hsq : t_rows t = t_cols t).
  { destruct Hx as [-> | ->]; cbn [square_of] in E; (destruct (Nat.eqb_spec (t_cols t) (t_rows t)) as [Q|]; [|discriminate]); congruence. }
  assert (B : (Nat.ltb i (t_rows t) && Nat.ltb j (t_cols t))%bool = true).
  { rewrite <- Hsq. apply andb_true_intro. split; apply Nat.ltb_lt; assumption. }
  split; intro Hs.
  - assert (P : put_array t i j v = Err TypeError) by (unfold put_array, stored; rewrite B, Hk, Hv, Hs; reflexivity).
    destruct Hx as [-> | ->]; cbn [square_of] in E; rewrite <- Hsq, Nat.eqb_refl in E; injection E as <-; unfold assign; cbn [m_held]; rewrite P; reflexivity.
  - assert (P : put_array t i j v = Ok (put t i j (RtoC (fst (v_number v))))) by (unfold put_array, stored; rewrite B, Hk, Hv, Hs; reflexivity).
    assert (T : t_at (put t i j (RtoC (fst (v_number v)))) i j = RtoC (fst (v_number v))) by (cbn; rewrite !Nat.eqb_refl; reflexivity).
    destruct Hx as [-> | ->]; cbn [square_of] in E; rewrite <- Hsq, Nat.eqb_refl in E; injection E as <-; unfold assign; cbn [m_held];
      rewrite P; eexists; (split; [reflexivity|]);
      match goal with |- element ?m _ _ = _ =>
        destruct (content_reads m (put t i j (RtoC (fst (v_number v)))) eq_refl Hsq eq_refl eq_refl i j Hi Hj) as [G _] end;
      rewrite T in G; exact G.
Qed.

Lemma lists_fixed t i j v :
  exists m, matrix_of (GivenLists t) None = Ok m /\ assign m i j v = Err TypeError.
Proof. eexists. split; reflexivity. Qed.

Lemma caller_changes t m i j v :
  t_rows t = t_cols t -> square_of (GivenArray t) None = Ok m -> (i < t_rows t)%nat -> (j < t_rows t)%nat -> holds (t_kind t) v ->
  exists m', caller_assigns m i j v = Ok m' /\ element m' i j = Ok (v_number v).
Proof.
  intros Hsq E Hi Hj Hv. cbn [square_of] in E. rewrite <- Hsq, Nat.eqb_refl in E. injection E as <-.
  assert (P : put_array t i j v = Ok (put t i j (v_number v))).
  { unfold put_array. rewrite <- Hsq. pose proof Hi as A. pose proof Hj as B. apply Nat.ltb_lt in A. apply Nat.ltb_lt in B.
    rewrite A, B, (stored_exact _ _ Hv). reflexivity. }
  unfold caller_assigns. cbn [m_held]. rewrite P. eexists. split; [reflexivity|].
  assert (T : t_at (put t i j (v_number v)) i j = v_number v) by (cbn; rewrite !Nat.eqb_refl; reflexivity).
  match goal with |- element ?m _ _ = _ => destruct (content_reads m (put t i j (v_number v)) eq_refl Hsq eq_refl eq_refl i j Hi Hj) as [G _] end.
  rewrite T in G. exact G.
Qed.

Lemma integer_truncated x t m i j v :
  x = GivenArray t \/ x = GivenLists t -> t_kind t = Ints -> square_of x None = Ok m ->
  (i < t_rows t)%nat -> (j < t_rows t)%nat -> v_kind v = Reals ->
  exists m', assign m i j v = Ok m' /\ element m' i j = Ok (RtoC (truncated (fst (v_number v)))).
Proof.
  intros Hx Hk E Hi Hj Hv. set (y := RtoC (truncated (fst (v_number v)))).
  assert (Hsq : t_rows t = t_cols t).
  { destruct Hx as [-> | ->]; cbn [square_of] in E; (destruct (Nat.eqb_spec (t_cols t) (t_rows t)) as [Q|]; [|discriminate]); congruence. }
  assert (B : (Nat.ltb i (t_rows t) && Nat.ltb j (t_cols t))%bool = true).
  { rewrite <- Hsq. apply andb_true_intro. split; apply Nat.ltb_lt; assumption. }
  assert (P : put_array t i j v = Ok (put t i j y)) by (unfold put_array, stored; rewrite B, Hk, Hv; destruct (v_source v); reflexivity).
  assert (T : t_at (put t i j y) i j = y) by (cbn; rewrite !Nat.eqb_refl; reflexivity).
  destruct Hx as [-> | ->]; cbn [square_of] in E; rewrite <- Hsq, Nat.eqb_refl in E; injection E as <-; unfold assign; cbn [m_held];
    rewrite P; eexists; (split; [reflexivity|]);
    match goal with |- element ?m _ _ = _ => destruct (content_reads m (put t i j y) eq_refl Hsq eq_refl eq_refl i j Hi Hj) as [G _] end;
    rewrite T in G; exact G.
Qed.
Lemma Int_part_fraction x : (0 <= x < 1)%R -> Int_part x = 0%Z.
Proof.
  intros [H1 H2]. destruct (base_Int_part x) as [B1 B2].
  assert (Int_part x < 1)%Z by (apply lt_IZR; lra). assert (-1 < Int_part x)%Z by (apply lt_IZR; lra). lia.
Qed.
Lemma truncated_fraction x : (-1 < x < 1)%R -> truncated x = 0%R.
Proof.
  intros [H1 H2]. unfold truncated. destruct (Rle_dec 0 x) as [H|H]; rewrite Int_part_fraction by lra; cbn; ring.
Qed.
Lemma integer_lost x t m i j v :
  x = GivenArray t \/ x = GivenLists t -> t_kind t = Ints -> square_of x None = Ok m ->
  (i < t_rows t)%nat -> (j < t_rows t)%nat -> v_kind v = Reals -> (-1 < fst (v_number v) < 1)%R ->
  exists m', assign m i j v = Ok m' /\ element m' i j = Ok (RtoC 0).
Proof.
  intros Hx Hk E Hi Hj Hv Hf. rewrite <- (truncated_fraction _ Hf). eapply integer_truncated; eassumption.
Qed.
