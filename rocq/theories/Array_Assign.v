(** Proofs about to_matrix_field and assignments. *)
From Coq Require Import Reals Lra List Arith Bool ZArith Lia.
Require Import Verif.Base Verif.Cplx Verif.CSum Verif.Array_Model Verif.Array_Spec Verif.Array_Proofs.
Import ListNotations.
Local Open Scope R_scope.
Local Open Scope C_scope.

(** ** to_matrix_field *)
Lemma tmf_length nd a : adim (to_matrix_field nd a) = Nat.max (nd + 2) (adim a).
Proof.
  unfold to_matrix_field. set (k := (nd + 2 - adim a)%nat). destruct (expand_iter k a) as [H _].
  assert (adim (Nat.iter k expand0 a) = Nat.max (nd + 2) (adim a)) as E by (unfold adim at 1; rewrite H, app_length, repeat_length; unfold adim, k; unfold adim; lia).
  destruct (_ && _); [|exact E]. rewrite <- E. unfold adim, aswap. cbn [ashape]. destruct (ashape (Nat.iter k expand0 a)) as [|x [|y l]]; reflexivity.
Qed.
Lemma tmf_form nd a : exists m n s, ashape (to_matrix_field nd a) = m :: n :: s /\ ~ (m = 1 /\ 1 < n)%nat /\ (adim a <= nd + 2 -> length s = nd)%nat.
Proof.
  pose proof (tmf_length nd a) as L. unfold to_matrix_field in *. set (k := (nd + 2 - adim a)%nat) in *.
  set (b := Nat.iter k expand0 a) in *. destruct (ashape b) as [|m [|n s]] eqn:E.
  - exfalso. destruct (_ && _) in L; unfold adim, aswap in L; cbn [ashape] in L; rewrite E in L; cbn in L; lia.
  - exfalso. destruct (_ && _) in L; unfold adim, aswap in L; cbn [ashape] in L; rewrite E in L; cbn in L; lia.
  - cbn [nth] in *. destruct (Nat.eqb_spec m 1) as [->|Hm]; destruct (Nat.ltb_spec 1 n) as [Hn|Hn]; cbn [andb] in *.
    + exists n, 1%nat, s. unfold adim, aswap in *. cbn [ashape] in *. rewrite E in *. cbn in *. repeat split; lia.
    + exists 1%nat, n, s. unfold adim in *. rewrite E in *. cbn in *. repeat split; lia.
    + exists m, n, s. unfold adim in *. rewrite E in *. cbn in *. repeat split; lia.
    + exists m, n, s. unfold adim in *. rewrite E in *. cbn in *. repeat split; lia.
Qed.
Lemma tmf_idempotent nd a : to_matrix_field nd (to_matrix_field nd a) = to_matrix_field nd a.
Proof.
  destruct (tmf_form nd a) as (m & n & s & H & Hn & _). pose proof (tmf_length nd a) as L. set (b := to_matrix_field nd a) in *.
  unfold to_matrix_field. replace (nd + 2 - adim b)%nat with 0%nat by lia. cbn [Nat.iter nat_rect]. rewrite H. cbn [nth].
  destruct (Nat.eqb_spec m 1); [|reflexivity]. destruct (Nat.ltb_spec 1 n); [tauto|reflexivity].
Qed.
Lemma tmf_grid gs a : ashape a = gs -> ashape (to_matrix_field (length gs) a) = 1%nat :: 1%nat :: gs /\
  forall i j p, aget (to_matrix_field (length gs) a) (i :: j :: p) = aget a p.
Proof.
  intros H. destruct (tmf_expand (length gs) a) as [H1 H2]; [unfold adim; rewrite H; lia|].
  assert (length gs + 2 - adim a = 2)%nat as E by (unfold adim; rewrite H; lia). rewrite E in *. rewrite H in H1. split; [exact H1|]. intros i j p. rewrite H2. reflexivity.
Qed.
Lemma tmf_vector s n a : ashape a = n :: s -> (1 <= n)%nat -> ashape (to_matrix_field (length s) a) = n :: 1%nat :: s /\
  forall c p, (c < n)%nat -> aget (to_matrix_field (length s) a) (c :: 0%nat :: p) = aget a (c :: p).
Proof.
  intros H Hn. unfold to_matrix_field. replace (length s + 2 - adim a)%nat with 1%nat by (unfold adim; rewrite H; cbn; lia).
  change (Nat.iter 1 expand0 a) with (expand0 a).
  assert (ashape (expand0 a) = 1%nat :: n :: s) as E by (cbn [expand0 ashape]; rewrite H; reflexivity). rewrite E. cbn [nth Nat.eqb andb]. destruct (Nat.ltb_spec 1 n).
  - unfold aswap. cbn [ashape]. rewrite E. split; reflexivity.
  - assert (n = 1)%nat as -> by lia. rewrite E. split; [reflexivity|]. intros c p Hc. assert (c = 0)%nat as -> by lia. reflexivity.
Qed.
Lemma tmf_row nd n s a : ashape a = 1%nat :: n :: s -> length s = nd -> (1 < n)%nat -> ashape (to_matrix_field nd a) = n :: 1%nat :: s /\
  forall i p, aget (to_matrix_field nd a) (i :: 0%nat :: p) = aget a (0%nat :: i :: p).
Proof.
  intros H Hs Hn. unfold to_matrix_field, adim. rewrite H. cbn [length]. replace (nd + 2 - Datatypes.S (Datatypes.S (length s)))%nat with 0%nat by lia.
  cbn [Nat.iter nat_rect]. rewrite H. cbn [nth Nat.eqb]. destruct (Nat.ltb_spec 1 n); [|lia]. cbn [andb]. unfold aswap. cbn [ashape]. rewrite H. split; reflexivity.
Qed.

(** ** Assignments *)
Lemma zip_length {A} (f : A -> A -> A) s t : length s = length t -> length (zip f s t) = length s.
Proof. revert t. induction s as [|x s IH]; intros [|y t] H; cbn in *; try congruence. rewrite IH; [reflexivity|congruence]. Qed.
Lemma tile_fits s t : length s = length t -> Forall (fun n => 0 < n)%nat t ->
  fits_in (zip Nat.mul s (zip Nat.div t s)) t = true <-> divide_all s t.
Proof.
  revert t. induction s as [|d s IH]; intros [|n t] L P; try discriminate L.
  - split; intros; [constructor|reflexivity].
  - cbn [zip fits_in]. inversion P as [|? ? Pn Pt]; subst. rewrite andb_true_iff, (IH t) by (try assumption; cbn in L; congruence). unfold divide_all.
    rewrite orb_true_iff, !Nat.eqb_eq. split.
    + intros [H1 H2]. constructor; [|exact H2]. destruct d as [|d]; [cbn in H1; lia|].
      destruct H1 as [H1|H1]; [exists (n / Datatypes.S d)%nat; lia|]. assert (Datatypes.S d = 1)%nat as -> by (apply (Nat.eq_mul_1 _ _) in H1; tauto). apply Nat.divide_1_l.
    + intros H. inversion H as [|? ? ? ? (q & Hq) H2]; subst. split; [|exact H2]. left. destruct d as [|d]; [lia|]. rewrite Nat.div_mul by lia. lia.
Qed.
Lemma divide_clip s t p : divide_all s t -> inside t p -> Forall (fun n => 0 < n)%nat t ->
  clip (zip Nat.mul s (zip Nat.div t s)) p = p.
Proof.
  intros H. revert p. induction H as [|d n s t (q & Hq) H IH]; intros p Hp P; inversion Hp as [|? i ? p' Hi Hp']; subst; [reflexivity|].
  inversion P as [|? ? Pn Pt]; subst. cbn. rewrite IH by assumption. f_equal. destruct d as [|d]; [lia|]. rewrite Nat.div_mul by lia.
  destruct (Nat.eqb_spec (Datatypes.S d * q) 1); [|reflexivity]. lia.
Qed.
Lemma inside_clip t p : inside t p -> clip t p = p.
Proof. induction 1 as [|n i t p Hi H IH]; [reflexivity|]. cbn. rewrite IH. destruct (Nat.eqb_spec n 1); [|reflexivity]. f_equal. lia. Qed.
Lemma inside_mod t p : inside t p -> zip (fun i n => i mod n)%nat p t = p.
Proof. induction 1 as [|n i t p Hi H IH]; [reflexivity|]. cbn. rewrite IH, Nat.mod_small by exact Hi. reflexivity. Qed.
Lemma fill_same s a : adim a = length s -> fill s a = if fits_in (ashape a) s then Ok (Arr s (bget a)) else Err ValueError.
Proof.
  intros H. unfold fill. rewrite H, Nat.sub_diag. cbn [firstn forallb andb skipn repeat app ashape]. rewrite lpad_same by exact H.
  destruct a as [sh ge]. cbn [ashape aget]. reflexivity.
Qed.
Lemma divide_refl t : divide_all t t.
Proof. induction t; constructor; [apply Nat.divide_refl|assumption]. Qed.
Lemma fits_refl t : fits_in t t = true.
Proof. induction t as [|n t IH]; [reflexivity|]. cbn. rewrite Nat.eqb_refl, IH. reflexivity. Qed.

(** Arrays that broadcast. *)
Lemma spatial_divide gs s : spatial gs s -> divide_all s gs.
Proof. induction 1 as [|n d l s Hd H IH]; [constructor|]. constructor; [destruct Hd as [-> | ->]; [apply Nat.divide_refl|apply Nat.divide_1_l]|exact IH]. Qed.
Lemma spatial_mod gs s p : spatial gs s -> inside gs p -> zip (fun i n => i mod n)%nat p s = clip s p.
Proof.
  intros Hs. revert p. induction Hs as [|n d l s Hd H IH]; intros p Hp; inversion Hp as [|? i ? p' Hi Hp']; subst; [reflexivity|]. cbn. f_equal; [|apply IH; assumption].
  destruct (Nat.eqb_spec d 1) as [->|]; [apply Nat.mod_1_r|]. destruct Hd as [->|]; [|contradiction]. apply Nat.mod_small. exact Hi.
Qed.
Section Assign.
  Variables (v : bool) (gs : list nat).
  Hypothesis Hg : Forall (fun n => 0 < n)%nat gs.
  Hypothesis Hgs : gs <> [].
  Let nv : nat := if v then 3%nat else 1%nat.
  Lemma full_pos : Forall (fun n => 0 < n)%nat (nv :: 1%nat :: gs).
  Proof. constructor; [unfold nv; destruct v; lia|]. constructor; [lia|exact Hg]. Qed.
  Lemma tile_ones s t : length s = length t -> Forall2 (fun x n => n <> 1 -> x <> 1)%nat (zip Nat.mul s (zip Nat.div t s)) t.
  Proof.
    revert t. induction s as [|d s IH]; intros [|n t] L; try discriminate L; constructor; [|apply IH; cbn in L; congruence].
    intros H1 H2. apply Nat.eq_mul_1 in H2 as [-> H2]. rewrite Nat.div_1_r in H2. contradiction.
  Qed.
  (** The array that is written into the output. *)
  Lemma assign_cases out a : (adim a <= length gs + 2)%nat -> exists b,
    assign v gs out a = fill out b /\ adim b = (length gs + 2)%nat /\ Forall2 (fun x n => n <> 1 -> x <> 1)%nat (ashape b) (nv :: 1%nat :: gs) /\
    let s := ashape (to_matrix_field (length gs) a) in
    (fits_in (ashape b) (nv :: 1%nat :: gs) = true <-> divide_all s (nv :: 1%nat :: gs)) /\
    forall p, divide_all s (nv :: 1%nat :: gs) -> inside (nv :: 1%nat :: gs) p ->
      clip (ashape b) p = p /\ aget b p = aget (to_matrix_field (length gs) a) (zip (fun i n => i mod n)%nat p s).
  Proof.
    intros Ha. unfold assign. destruct (tmf_form (length gs) a) as (m & n & s & Hs & Hn & Hl). specialize (Hl Ha).
    set (b := to_matrix_field (length gs) a) in *. assert (adim b = length gs + 2)%nat as Lb by (unfold adim; rewrite Hs; cbn; lia). rewrite Lb, Nat.eqb_refl.
    replace (length gs + 2 - length gs)%nat with 2%nat by lia. replace (2 - 2)%nat with 0%nat by lia. rewrite Hs. cbn [skipn nth]. fold nv.
    pose proof full_pos as FP.
    assert (forall l, length l = length gs -> l = s -> exists b0, fill out (tile b (zip Nat.div (nv :: 1%nat :: gs) (m :: n :: s))) = fill out b0 /\
      adim b0 = (length gs + 2)%nat /\ Forall2 (fun x n => n <> 1 -> x <> 1)%nat (ashape b0) (nv :: 1%nat :: gs) /\
      (fits_in (ashape b0) (nv :: 1%nat :: gs) = true <-> divide_all (m :: n :: s) (nv :: 1%nat :: gs)) /\
      forall p, divide_all (m :: n :: s) (nv :: 1%nat :: gs) -> inside (nv :: 1%nat :: gs) p ->
        clip (ashape b0) p = p /\ aget b0 p = aget b (zip (fun i n => i mod n)%nat p (m :: n :: s))) as K.
    { intros _ _ _. assert (length (m :: n :: s) = length (nv :: 1%nat :: gs)) as L by (cbn; congruence).
      exists (tile b (zip Nat.div (nv :: 1%nat :: gs) (m :: n :: s))). split; [reflexivity|]. unfold adim, tile. cbn [ashape aget]. rewrite Hs.
      split; [rewrite zip_length; [cbn; lia|]; rewrite zip_length; congruence|]. split; [apply tile_ones; exact L|]. split; [apply tile_fits; assumption|].
      intros p Hd Hp. split; [apply divide_clip; assumption|reflexivity]. }
    destruct (list_eq_dec Nat.eq_dec s gs) as [E|Hd]; [destruct (Nat.eqb_spec m nv) as [Em|Hm]; cbn [negb]|].
    - exists b. split; [reflexivity|]. split; [exact Lb|]. cbv zeta. rewrite Hs. subst s m. split; [|split].
      + constructor; [tauto|]. constructor; [tauto|]. clear. induction gs; constructor; tauto.
      + cbn [fits_in]. rewrite Nat.eqb_refl, fits_refl. cbn [orb andb]. rewrite andb_true_r, orb_diag, Nat.eqb_eq. split.
        * intros ->. apply divide_refl.
        * intros H. inversion H as [|? ? ? ? _ H2]; subst. inversion H2 as [|? ? ? ? H3 _]; subst. apply Nat.divide_1_r in H3. exact H3.
      + intros p Hdv Hp. inversion Hdv as [|? ? ? ? _ H2]; subst. inversion H2 as [|? ? ? ? H3 _]; subst. apply Nat.divide_1_r in H3. subst n.
        rewrite inside_clip, inside_mod by exact Hp. split; reflexivity.
    - apply (K s Hl eq_refl).
    - apply (K s Hl eq_refl).
  Qed.
  Lemma assign_spec a : (adim a <= length gs + 2)%nat ->
    let b := to_matrix_field (length gs) a in
    match assign v gs (field_shape v gs) a with
    | Ok out => divide_all (ashape b) (nv :: 1%nat :: gs) /\ ashape out = nv :: 1%nat :: gs /\
        forall p, inside (nv :: 1%nat :: gs) p -> aget out p = aget b (zip (fun i n => i mod n)%nat p (ashape b))
    | Err e => e = ValueError /\ ~ divide_all (ashape b) (nv :: 1%nat :: gs)
    end.
  Proof.
    intros Ha. destruct (assign_cases (field_shape v gs) a Ha) as (x & -> & Lx & _ & Hf & Hv). cbv zeta in *. unfold field_shape. fold nv.
    rewrite fill_same by (rewrite Lx; cbn; lia). destruct (fits_in (ashape x) (nv :: 1%nat :: gs)) eqn:E.
    - split; [apply Hf; reflexivity|]. split; [reflexivity|]. intros p Hp. destruct (Hv p (proj1 Hf eq_refl) Hp) as [H1 H2].
      cbn [aget]. rewrite bget_same by (rewrite Lx; apply inside_length in Hp; rewrite Hp; cbn; lia). unfold element. rewrite H1. exact H2.
    - split; [reflexivity|]. intros H. apply Hf in H. discriminate.
  Qed.
  Lemma assign_broadcast a m s : let b := to_matrix_field (length gs) a in ashape b = m :: 1%nat :: s -> (m = nv \/ m = 1)%nat -> spatial gs s ->
    exists out, assign v gs (field_shape v gs) a = Ok out /\ holds nv gs out (component b).
  Proof.
    intros b Hb Hm Hs. assert (adim a <= length gs + 2)%nat as Ha.
    { pose proof (tmf_length (length gs) a) as L. fold b in L. unfold adim in L at 1. rewrite Hb in L. cbn in L. apply spatial_length in Hs. lia. }
    pose proof (assign_spec a Ha) as H. cbv zeta in H. fold b in H.
    assert (divide_all (ashape b) (nv :: 1%nat :: gs)) as Hd.
    { rewrite Hb. constructor; [destruct Hm as [-> | ->]; [apply Nat.divide_refl|apply Nat.divide_1_l]|]. constructor; [apply Nat.divide_refl|apply (spatial_divide gs); exact Hs]. }
    destruct (assign v gs (field_shape v gs) a) as [out|e]; [|tauto]. destruct H as (_ & H1 & H2). exists out. split; [reflexivity|]. split; [exact H1|].
    intros c p Hc Hp. rewrite H2 by (constructor; [exact Hc|]; constructor; [lia|exact Hp]). unfold component, element. rewrite Hb. cbn [zip clip Nat.eqb]. rewrite (spatial_mod gs) by assumption.
    f_equal. f_equal. destruct (Nat.eqb_spec m 1) as [->|]; [apply Nat.mod_1_r|]. destruct Hm as [->|]; [|contradiction]. apply Nat.mod_small. exact Hc.
  Qed.
  (** A source with singleton axes cannot be replaced. *)
  Lemma assign_singleton out a : (adim a <= length gs + 2)%nat -> length out = (length gs + 2)%nat ->
    Exists (fun xn => fst xn = 1 /\ snd xn <> 1)%nat (combine out (nv :: 1%nat :: gs)) -> assign v gs out a = Err ValueError.
  Proof.
    intros Ha Lo He. destruct (assign_cases out a Ha) as (b & -> & Lb & Hb & _). rewrite fill_same by congruence.
    assert (fits_in (ashape b) out = false) as ->; [|reflexivity].
    clear - Hb He. revert out He. induction Hb as [|x n s t Hx H IH]; intros [|y out] He; cbn in He; try (inversion He; fail).
    cbn. inversion He as [? ? H1|? ? H1]; subst; cbn in *.
    - destruct (Nat.eqb_spec x y); [lia|]. destruct (Nat.eqb_spec x 1); [tauto|]. reflexivity.
    - rewrite (IH out H1). apply andb_false_r.
  Qed.
End Assign.
