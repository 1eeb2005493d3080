(** Consequences for assignments to E and to the source, and for ldivide. *)
From Coq Require Import Reals Lra List Arith Bool ZArith Lia.
Require Import Verif.Base Verif.Cplx Verif.CSum Verif.Solver_Model Verif.Array_Model Verif.Array_Spec Verif.Array_Proofs Verif.Array_Assign.
Import ListNotations.
Local Open Scope R_scope.
Local Open Scope C_scope.

(** ** Canonical form *)
Lemma number_entries gs x : tensor_array 3 gs (to_matrix_field (length gs) (number x)) /\
  forall i j p, entry (to_matrix_field (length gs) (number x)) i j p = if (i =? j)%nat then x else 0.
Proof.
  destruct (tmf_number (length gs) x) as [H1 H2]. split.
  - exists 1%nat, (repeat 1%nat (length gs)). split; [exact H1|]. split; [auto|apply ones_spatial].
  - intros i j p. unfold entry, element. rewrite H1. cbn [nth repeat Nat.add Nat.eqb]. rewrite H2. reflexivity.
Qed.
Lemma spatial_refl gs : spatial gs gs.
Proof. induction gs; constructor; auto. Qed.
Lemma grid_entries gs a : ashape a = gs -> tensor_array 3 gs (to_matrix_field (length gs) a) /\
  forall i j p, inside gs p -> entry (to_matrix_field (length gs) a) i j p = if (i =? j)%nat then aget a p else 0.
Proof.
  intros H. destruct (tmf_grid gs a H) as [H1 H2]. split.
  - exists 1%nat, gs. split; [exact H1|]. split; [auto|apply spatial_refl].
  - intros i j p Hp. unfold entry, element. rewrite H1. cbn [nth Nat.eqb clip]. rewrite H2, inside_clip by exact Hp. reflexivity.
Qed.
Lemma column_components gs a : ashape a = 3%nat :: gs -> vector_array 3 gs (to_matrix_field (length gs) a) /\
  forall i p, (i < 3)%nat -> inside gs p -> component (to_matrix_field (length gs) a) i p = aget a (i :: p).
Proof.
  intros H. destruct (tmf_vector gs 3 a H) as [H1 H2]; [lia|]. split.
  - exists gs. split; [exact H1|apply spatial_refl].
  - intros i p Hi Hp. unfold component, element. rewrite H1. cbn [clip Nat.eqb]. rewrite H2, inside_clip by assumption. reflexivity.
Qed.
Lemma row_components gs a : ashape a = 1%nat :: 3%nat :: gs -> vector_array 3 gs (to_matrix_field (length gs) a) /\
  forall i p, (i < 3)%nat -> inside gs p -> component (to_matrix_field (length gs) a) i p = aget a (0%nat :: i :: p).
Proof.
  intros H. destruct (tmf_row (length gs) 3 gs a H) as [H1 H2]; [reflexivity|lia|]. split.
  - exists gs. split; [exact H1|apply spatial_refl].
  - intros i p Hi Hp. unfold component, element. rewrite H1. cbn [clip Nat.eqb]. rewrite H2, inside_clip by assumption. reflexivity.
Qed.
Lemma matrix_unchanged gs a : ashape a = 3%nat :: 3%nat :: gs -> to_matrix_field (length gs) a = a.
Proof. intros H. apply (tmf_same _ a 3 3 gs H eq_refl). lia. Qed.

(** ** Arrays that broadcast to the shape of E *)
Lemma clip_ones k s p : clip (repeat 1%nat k ++ s) p = repeat 0%nat (Nat.min k (length p)) ++ clip s (skipn k p).
Proof.
  revert p. induction k as [|k IH]; intros p; [reflexivity|]. destruct p as [|i p]; [destruct s; reflexivity|]. cbn. rewrite IH. reflexivity.
Qed.
Lemma skipn_skipn_rep k (l : list nat) : skipn k (repeat 0%nat k ++ l) = l.
Proof. induction k; [reflexivity|assumption]. Qed.
Lemma spatial_tail n gs m s : spatial (n :: gs) (m :: s) -> (m = n \/ m = 1)%nat /\ spatial gs s.
Proof. intros H. inversion H; subst. auto. Qed.

Lemma broadcast_form nv gs a : (1 <= nv)%nat -> broadcasts a (nv :: gs) -> exists m s,
  ashape (to_matrix_field (length gs) a) = m :: 1%nat :: s /\ (m = nv \/ m = 1)%nat /\ spatial gs s /\
  forall c p, (c < nv)%nat -> inside gs p -> component (to_matrix_field (length gs) a) c p = bget a (c :: p).
Proof.
  intros Hnv [Hd Hb]. cbn [length] in Hd. destruct (le_lt_dec (adim a) (length gs)) as [Hl|Hl].
  - destruct (tmf_expand (length gs) a Hl) as [H1 H2]. set (k := (length gs - adim a)%nat) in *.
    replace (length gs + 2 - adim a)%nat with (Datatypes.S (Datatypes.S k)) in * by (unfold k; lia).
    assert (lpad (length (nv :: gs)) (ashape a) = 1%nat :: repeat 1%nat k ++ ashape a) as E.
    { unfold lpad. fold (adim a). cbn [length]. replace (Datatypes.S (length gs) - adim a)%nat with (Datatypes.S k) by (unfold k; lia). reflexivity. }
    rewrite E in Hb. apply spatial_tail in Hb as [_ Hb].
    exists 1%nat, (repeat 1%nat k ++ ashape a). split; [exact H1|]. split; [auto|]. split; [exact Hb|].
    intros c p Hc Hp. unfold component, element, bget. rewrite H1, H2. cbn [repeat app clip Nat.eqb skipn]. rewrite clip_ones.
    apply inside_length in Hp. cbn [length]. rewrite Hp. replace (Nat.min k (length gs)) with k by (unfold k; lia).
    rewrite skipn_skipn_rep. replace (Datatypes.S (length gs) - adim a)%nat with (Datatypes.S k) by (unfold k; lia). reflexivity.
  - assert (adim a = Datatypes.S (length gs)) as L by lia. unfold lpad in Hb. fold (adim a) in Hb. cbn [length] in Hb. rewrite L, Nat.sub_diag in Hb. cbn [repeat app] in Hb.
    destruct (ashape a) as [|m s] eqn:Ea; [inversion Hb|]. apply spatial_tail in Hb as [Hm Hs].
    assert (1 <= m)%nat as Hm1 by (destruct Hm; lia). pose proof (spatial_length _ _ Hs) as Ls.
    destruct (tmf_vector s m a Ea Hm1) as [H1 H2]. rewrite Ls in H1, H2. exists m, s. split; [exact H1|]. split; [exact Hm|]. split; [exact Hs|].
    intros c p Hc Hp. unfold component, element, bget. rewrite H1. apply inside_length in Hp. cbn [length]. rewrite Hp, L, Nat.sub_diag. cbn [skipn]. rewrite Ea.
    cbn [clip Nat.eqb]. rewrite H2; [reflexivity|]. destruct (Nat.eqb_spec m 1); [lia|]. destruct Hm; [lia|contradiction].
Qed.

Lemma IZR_sq z : IZR (z * z) = (IZR z * IZR z)%R.
Proof. apply mult_IZR. Qed.
Lemma broadcasts_amap f a t : broadcasts a t -> broadcasts (amap f a) t.
Proof. exact (fun H => H). Qed.
Lemma bget_amap f a p : bget (amap f a) p = f (bget a p).
Proof. reflexivity. Qed.
Definition scaled (k : pynumber) (a : array) : array := amap (fun x => x * RtoC (real_value k * real_value k)) a.
Lemma times_square_array k a : times_square (VArray a) k = Ok (VArray (scaled k a)).
Proof. destruct k; cbn [times_square asarray]; unfold scaled, real_value; [rewrite IZR_sq|..]; reflexivity. Qed.
Lemma times_square_number k x : exists y, times_square (VNumber x) k = Ok y /\ asarray y = scaled k (number x).
Proof. destruct k; cbn [times_square asarray]; unfold scaled, real_value; eexists; (split; [reflexivity|]); cbn [asarray]; [rewrite IZR_sq|..]; reflexivity. Qed.
Lemma get_E_spec (v : bool) gs k out (F : nat -> list nat -> C) : real_value k <> 0%R -> holds (if v then 3 else 1)%nat gs out (fun c p => F c p * RtoC (real_value k * real_value k)) ->
  reads (if v then 3 else 1)%nat gs (get_E k out) F.
Proof.
  intros Hk [H1 H2]. unfold reads, get_E. cbn [ashape aget]. rewrite H1. split; [reflexivity|]. intros c p Hc Hp. rewrite H2 by assumption.
  assert (match k with PyInt z => IZR (z * z) | PyFloat r | NpFloat r => (r * r)%R end = (real_value k * real_value k)%R) as -> by (destruct k; cbn [real_value]; [apply IZR_sq|reflexivity|reflexivity]).
  field. intros H. apply RtoC_inj in H. apply Rmult_integral in H. tauto.
Qed.

Lemma assign_E_value (v : bool) gs k E a : Forall (fun n => 0 < n)%nat gs -> real_value k <> 0%R ->
  (exists y, times_square E k = Ok y /\ asarray y = scaled k a) -> broadcasts a ((if v then 3 else 1)%nat :: gs) ->
  exists out, assign_E v gs k E = Ok out /\ reads (if v then 3 else 1)%nat gs (get_E k out) (fun c p => bget a (c :: p)).
Proof.
  intros Hg Hk (y & Hy & Ey) Hb. unfold assign_E. rewrite Hy. cbn [bind]. rewrite Ey.
  assert (1 <= (if v then 3 else 1))%nat as Hnv by (destruct v; lia).
  destruct (broadcast_form _ gs (scaled k a) Hnv (broadcasts_amap _ _ _ Hb)) as (m & s & H1 & H2 & H3 & H4).
  destruct (assign_broadcast v gs Hg (scaled k a) m s H1 H2 H3) as (out & H5 & H6 & H7). exists out. split; [exact H5|]. apply get_E_spec; [exact Hk|].
  split; [exact H6|]. intros c p Hc Hp. rewrite H7, H4 by assumption. reflexivity.
Qed.

(** ** Other arrays: they are repeated when their sizes divide those of E, else rejected *)
Lemma assign_E_array (v : bool) gs k a m s : Forall (fun n => 0 < n)%nat gs -> real_value k <> 0%R -> (1 <= m)%nat -> ashape a = m :: s -> length s = length gs ->
  match assign_E v gs k (VArray a) with
  | Ok out => divide_all (m :: s) ((if v then 3 else 1)%nat :: gs) /\
      reads (if v then 3 else 1)%nat gs (get_E k out) (fun c p => aget a (zip (fun i n => i mod n)%nat (c :: p) (m :: s)))
  | Err e => e = ValueError /\ ~ divide_all (m :: s) ((if v then 3 else 1)%nat :: gs)
  end.
Proof.
  intros Hg Hk Hm Ha Hs. unfold assign_E. rewrite times_square_array. cbn [bind asarray].
  assert (adim (scaled k a) <= length gs + 2)%nat as Hd by (unfold adim, scaled, amap; cbn [ashape]; rewrite Ha; cbn; lia).
  pose proof (assign_spec v gs Hg (scaled k a) Hd) as H. cbv zeta in H. destruct (tmf_vector s m (scaled k a) Ha Hm) as [H1 H2]. rewrite Hs in H1, H2.
  rewrite H1 in H. set (nv := if v then 3%nat else 1%nat) in *.
  assert (divide_all (m :: 1%nat :: s) (nv :: 1%nat :: gs) <-> divide_all (m :: s) (nv :: gs)) as Hiff.
  { split; intros D; inversion D as [|? ? ? ? D1 D2]; subst; constructor; try assumption; [inversion D2; assumption|]. constructor; [apply Nat.divide_refl|exact D2]. }
  destruct (assign v gs (field_shape v gs) (scaled k a)) as [out|e]; rewrite Hiff in H; [|exact H]. destruct H as (H3 & H4 & H5). split; [exact H3|].
  apply get_E_spec; [exact Hk|]. split; [exact H4|]. intros c p Hc Hp. rewrite H5 by (constructor; [exact Hc|]; constructor; [lia|exact Hp]).
  cbn [zip]. rewrite Nat.mod_0_l by lia. rewrite H2 by (apply Nat.mod_upper_bound; lia). reflexivity.
Qed.

(** ** The source *)
Lemma source_first (v : bool) gs ai beta s b : b = to_matrix_field (length gs) (asarray s) -> (adim (asarray s) <= length gs + 2)%nat ->
  exists o, assign_source v gs ai beta None s = Ok o /\ ashape o = ashape b /\ forall p, length p = adim b -> element o p = element b p * (Ci / RtoC ai / RtoC beta).
Proof.
  intros Hb Hd. unfold assign_source. cbv zeta. rewrite <- Hb. unfold mul. cbn [is_scalar number ashape]. rewrite orb_true_r. unfold abin. cbn [number ashape].
  assert (bshape (ashape b) [] = Some (ashape b)) as ->.
  { unfold bshape. cbn [length]. rewrite Nat.max_0_r. rewrite lpad_same by reflexivity. unfold lpad. cbn [length]. rewrite Nat.sub_0_r, app_nil_r. apply bzip_ones. }
  eexists. split; [reflexivity|]. cbn [ashape]. split; [reflexivity|]. intros p Hp. unfold element. cbn [ashape aget]. f_equal.
  unfold bget. rewrite clip_length by exact Hp. unfold adim. rewrite Nat.sub_diag. cbn [skipn]. rewrite clip_idem. reflexivity.
Qed.
Lemma source_reads (v : bool) gs ai beta o (F : nat -> list nat -> C) : ai <> 0%R -> beta <> 0%R ->
  holds (if v then 3 else 1)%nat gs o (fun c p => F c p * (Ci / RtoC ai / RtoC beta)) -> reads (if v then 3 else 1)%nat gs (get_source ai beta o) F.
Proof.
  intros Ha Hb [H1 H2]. unfold reads, get_source. cbn [ashape aget]. rewrite H1. split; [reflexivity|]. intros c p Hc Hp. rewrite H2 by assumption.
  field. repeat split; intros H; try (apply RtoC_inj in H; contradiction). apply (f_equal snd) in H. cbn in H. lra.
Qed.
Lemma source_replace (v : bool) gs ai beta o a : Forall (fun n => 0 < n)%nat gs -> ai <> 0%R -> beta <> 0%R ->
  ashape o = field_shape v gs -> broadcasts a ((if v then 3 else 1)%nat :: gs) ->
  exists out, assign_source v gs ai beta (Some o) (VArray a) = Ok out /\ ashape out = field_shape v gs /\
    reads (if v then 3 else 1)%nat gs (get_source ai beta out) (fun c p => bget a (c :: p)).
Proof.
  intros Hg Hai Hbe Ho Hb. unfold assign_source. cbv zeta. cbn [asarray]. rewrite Ho.
  assert (1 <= (if v then 3 else 1))%nat as Hnv by (destruct v; lia).
  destruct (broadcast_form _ gs a Hnv Hb) as (m & s & H1 & H2 & H3 & H4). set (b := to_matrix_field (length gs) a) in *.
  set (x := amap _ b). assert (to_matrix_field (length gs) x = x) as E.
  { apply (tmf_same _ x m 1 s); [exact H1|apply spatial_length; exact H3|lia]. }
  destruct (assign_broadcast v gs Hg x m s) as (out & H5 & H6 & H7); try assumption; [rewrite E; exact H1|].
  exists out. split; [exact H5|]. split; [exact H6|]. apply source_reads; try assumption. split; [exact H6|]. intros c p Hc Hp. rewrite H7 by assumption. rewrite E.
  unfold component, x. rewrite amap_element. fold (component b c p). rewrite H4 by assumption. reflexivity.
Qed.
Lemma singleton_exists s t : length s = length t -> Exists (fun xn => fst xn = 1 /\ snd xn <> 1)%nat (combine s t) \/ Forall2 (fun x n => n = 1 \/ x <> 1)%nat s t.
Proof.
  revert t. induction s as [|x s IH]; intros [|n t] L; try discriminate L; [right; constructor|]. destruct (IH t) as [H|H]; [cbn in L; congruence|left; right; exact H|].
  destruct (Nat.eq_dec n 1); [right; constructor; auto|]. destruct (Nat.eq_dec x 1); [left; left; auto|right; constructor; auto].
Qed.
Lemma source_number_stuck (v : bool) gs ai beta x o s : Forall (fun n => 0 < n)%nat gs -> v = true \/ Exists (fun n => n <> 1%nat) gs ->
  assign_source v gs ai beta None (VNumber x) = Ok o -> (adim (asarray s) <= length gs + 2)%nat -> assign_source v gs ai beta (Some o) s = Err ValueError.
Proof.
  intros Hg Hv Ho Hd. destruct (source_first v gs ai beta (VNumber x) _ eq_refl) as (o' & H1 & H2 & _); [cbn; lia|]. rewrite H1 in Ho. injection Ho as <-.
  cbn [asarray] in H2. rewrite (proj1 (tmf_number (length gs) x)) in H2. unfold assign_source. cbv zeta. apply assign_singleton.
  - exact Hg.
  - pose proof (tmf_length (length gs) (asarray s)) as L. unfold adim, amap in *. cbn [ashape]. lia.
  - rewrite H2, repeat_length. lia.
  - rewrite H2. destruct Hv as [-> | Hv]; [left; cbn; lia|]. cbn [Nat.add repeat combine]. right. right. clear - Hv.
    induction Hv as [n gs H|n gs H IH]; cbn [length repeat combine]; [left; cbn; auto|right; exact IH].
Qed.
Lemma source_flat_stuck gs ai beta a o s : Forall (fun n => 0 < n)%nat gs -> ashape a = gs ->
  assign_source true gs ai beta None (VArray a) = Ok o -> (adim (asarray s) <= length gs + 2)%nat -> assign_source true gs ai beta (Some o) s = Err ValueError.
Proof.
  intros Hg Ha Ho Hd. destruct (source_first true gs ai beta (VArray a) _ eq_refl) as (o' & H1 & H2 & _); [unfold adim; cbn [asarray]; rewrite Ha; lia|]. rewrite H1 in Ho. injection Ho as <-.
  cbn [asarray] in H2. rewrite (proj1 (tmf_grid gs a Ha)) in H2. unfold assign_source. cbv zeta. apply assign_singleton.
  - exact Hg.
  - pose proof (tmf_length (length gs) (asarray s)) as L. unfold adim, amap in *. cbn [ashape]. lia.
  - rewrite H2. cbn. lia.
  - rewrite H2. left. cbn. lia.
Qed.
Lemma source_full (v : bool) gs ai beta a : ai <> 0%R -> beta <> 0%R -> ashape a = (if v then 3 else 1)%nat :: gs ->
  exists o, assign_source v gs ai beta None (VArray a) = Ok o /\ ashape o = field_shape v gs /\
    reads (if v then 3 else 1)%nat gs (get_source ai beta o) (fun c p => aget a (c :: p)).
Proof.
  intros Hai Hbe Ha. destruct (source_first v gs ai beta (VArray a) _ eq_refl) as (o & H1 & H2 & H3); [unfold adim; cbn [asarray]; rewrite Ha; cbn; lia|].
  cbn [asarray] in *. destruct (tmf_vector gs _ a Ha) as [H4 H5]; [destruct v; lia|]. rewrite H4 in H2. exists o. split; [exact H1|]. split; [exact H2|].
  apply source_reads; try assumption. split; [exact H2|]. intros c p Hc Hp.
  assert (inside ((if v then 3 else 1)%nat :: 1%nat :: gs) (c :: 0%nat :: p)) as Hi by (constructor; [exact Hc|]; constructor; [lia|exact Hp]).
  specialize (H3 (c :: 0%nat :: p)). unfold element, adim in H3. rewrite H2, H4, inside_clip in H3 by exact Hi. rewrite H3 by (apply inside_length; exact Hi). rewrite H5 by exact Hc. reflexivity.
Qed.

(** ** Lists *)
Lemma list_float (v : bool) gs r l : assign_E v gs (PyFloat r) (VList l) = Err TypeError.
Proof. reflexivity. Qed.
Lemma list_numpy (v : bool) gs r l : assign_E v gs (NpFloat r) (VList l) = assign_E v gs (NpFloat r) (VArray (of_list l)).
Proof. reflexivity. Qed.
Lemma list_int : exists out, assign_E false [4%nat] (PyInt 2) (VList [RtoC 1]) = Ok out /\ aget (get_E (PyInt 2) out) [0%nat; 0%nat] = RtoC (/ 4).
Proof.
  eexists. split; [reflexivity|]. cbn.
  change (Pos.to_nat 4) with 4%nat. cbn. unfold RtoC, Cdiv, Cinv, Cmult. cbn. f_equal; field.
Qed.

(** ** Vectors of shape (3,) *)
Lemma vector_last_axis : exists out, assign_E true [3%nat] (PyFloat 1) (VArray (of_list [RtoC 1; RtoC 2; RtoC 3])) = Ok out /\
  reads 3 [3%nat] (get_E (PyFloat 1) out) (fun c p => RtoC (INR (nth 0 p 0%nat + 1))).
Proof.
  set (a := of_list [RtoC 1; RtoC 2; RtoC 3]).
  assert (Forall (fun n => 0 < n)%nat [3%nat]) as Hg by (constructor; [lia|constructor]).
  assert (real_value (PyFloat 1) <> 0%R) as Hk by (cbn; lra).
  assert (broadcasts a [3; 3]%nat) as Hb by (split; [cbn; lia|]; constructor; [right; reflexivity|]; constructor; [left; reflexivity|constructor]).
  destruct (assign_E_value true [3%nat] (PyFloat 1) (VArray a) a Hg Hk (ex_intro _ _ (conj (times_square_array _ _) eq_refl)) Hb) as (out & H1 & H2 & H3).
  exists out. split; [exact H1|]. split; [exact H2|]. intros c p Hc Hp. rewrite H3 by assumption. inversion Hp as [|? i ? p' Hi Hp']; subst. inversion Hp'; subst.
  destruct i as [|[|[|i]]]; [| | |lia]; cbn; f_equal; lra.
Qed.
Lemma vector_rejected : assign_E true [4%nat] (PyFloat 1) (VArray (of_list [RtoC 1; RtoC 2; RtoC 3])) = Err ValueError.
Proof. reflexivity. Qed.

(** ** ldivide with a scalar field as numerator *)
Definition eye_field : array := Arr [3; 3; 3]%nat (fun p => eye (nth 0 p 0%nat) (nth 1 p 0%nat)).
Definition ramp_field : array := Arr [1; 1; 3]%nat (fun p => RtoC (INR (nth 2 p 0%nat))).
Lemma ldivide_ramp : exists c, ldivide 1 eye_field ramp_field = Ok c /\ ashape c = [3; 3; 3]%nat /\ aget c [1; 1; 0]%nat = RtoC 1 /\ aget ramp_field [0; 0; 0]%nat = RtoC 0.
Proof.
  eexists. split; [reflexivity|]. split; [reflexivity|]. split; [|cbn; reflexivity]. cbn.
  unfold inv3, det3. cbn. unfold eye, RtoC, Cdiv, Cinv, Cmult, Cplus, Cminus, Copp. cbn. f_equal; field.
Qed.

(** ** ldivide with matrices or vectors as numerators *)
Lemma bshape_spatial gs s t : spatial gs s -> spatial gs t -> exists r, bshape s t = Some r /\ spatial gs r /\ Forall2 (fun x y => x = 1 -> y = 1)%nat r s /\ Forall2 (fun x y => x = 1 -> y = 1)%nat r t.
Proof. intros Hs Ht. rewrite bshape_same by (rewrite (spatial_length _ _ Hs), (spatial_length _ _ Ht); reflexivity). apply bzip_spatial; assumption. Qed.
Lemma last_get' a m n s q i j : ashape a = m :: n :: s -> length q = length s -> aget (matrices_last a) (q ++ [i; j]) = aget a (i :: j :: q).
Proof.
  intros Ha Hq. unfold matrices_last. cbn [aget]. rewrite app_length. cbn [length]. replace (length q + 2 - 2)%nat with (length q) by lia.
  rewrite skip_app, first_app by reflexivity. reflexivity.
Qed.
Lemma ldivide_solves gs a u n t : ashape a = 3%nat :: 3%nat :: t -> spatial gs t -> regular gs a -> forall s, ashape u = 3%nat :: n :: s -> spatial gs s -> (1 <= n)%nat ->
  exists c r, ldivide (length gs) a u = Ok c /\ ashape c = 3%nat :: n :: r /\ spatial gs r /\
  forall i k p, (i < 3)%nat -> (k < n)%nat -> inside gs p -> csum 3 (fun j => entry a i j p * element c (j :: k :: p)) = element u (i :: k :: p).
Proof.
  intros Ha Ht Hreg s Hu Hs Hn. pose proof (spatial_length _ _ Hs) as Ls. pose proof (spatial_length _ _ Ht) as Lt.
  unfold ldivide. rewrite (tmf_same _ a _ _ _ Ha Lt), (tmf_same _ u _ _ _ Hu Ls) by lia.
  rewrite (is_scalar_shape a _ _ _ Ha), (is_scalar_shape u _ _ _ Hu). cbn [Nat.eqb andb].
  destruct (bshape_spatial gs t s Ht Hs) as (r & Hr1 & Hr2 & Hr3 & Hr4). pose proof (spatial_length _ _ Hr2) as Lr.
  assert (ashape (matrices_last a) = t ++ [3; 3]%nat) as Ela by (unfold matrices_last; cbn [ashape]; rewrite Ha; reflexivity).
  assert (ashape (matrices_last u) = s ++ [3%nat; n]) as Elu by (unfold matrices_last; cbn [ashape]; rewrite Hu; reflexivity).
  unfold linalg_solve. assert (adim (matrices_last a) - 2 = length gs)%nat as Ld by (unfold adim; rewrite Ela, app_length; cbn; lia). rewrite Ld. cbv zeta.
  rewrite Ela, Elu. rewrite (first_app t) by exact Lt. rewrite (first_app s) by exact Ls. rewrite Hr1. cbn [rmap].
  rewrite (nth_after s [3%nat; n] (length gs) 1) by exact Ls. cbn [nth].
  set (y := Arr (r ++ [3%nat; n]) _). assert (adim y - 2 = length gs)%nat as Ly by (unfold adim, y; cbn [ashape]; rewrite app_length; cbn; lia).
  assert (ashape (matrices_first y) = 3%nat :: n :: r) as Hy.
  { unfold matrices_first. rewrite Ly. unfold y. cbn [ashape]. rewrite skip_app, first_app by exact Lr. reflexivity. }
  exists (matrices_first y), r. split; [reflexivity|]. split; [exact Hy|]. split; [exact Hr2|].
  assert (forall j k p, (k < n)%nat -> length p = length gs -> element (matrices_first y) (j :: k :: p) = csum 3 (fun l => inv3 (fun i j => element a (i :: j :: p)) j l * element u (l :: k :: p))) as Hel.
  { intros j k p Hk Lp. unfold element at 1. rewrite Hy. cbn [clip Nat.eqb]. unfold matrices_first. cbn [aget skipn firstn].
    set (q := clip r p). assert (length q = length gs) as Lq by (unfold q; rewrite clip_length; lia).
    set (k' := if (n =? 1)%nat then 0%nat else k). unfold y. cbn [aget]. rewrite first_app by exact Lq. rewrite (nth_after q [j; k'] (length gs) 1) by exact Lq.
    replace (nth (length gs) (q ++ [j; k']) 0%nat) with j by (rewrite app_nth2 by lia; rewrite Lq, Nat.sub_diag; reflexivity). cbn [nth].
    apply csum_ext. intros l Hl. f_equal.
    - rewrite bget_same by (unfold adim, linalg_inv; cbn [ashape]; rewrite Ela, !app_length; cbn; lia). unfold element at 1.
      change (ashape (linalg_inv (matrices_last a))) with (ashape (matrices_last a)). rewrite Ela, clip_app by lia. cbn [clip Nat.eqb].
      rewrite (inv_get a t) by (try exact Ha; rewrite clip_length; lia). unfold q. rewrite clip_clip by exact Hr3.
      unfold inv3, det3, element. rewrite Ha. reflexivity.
    - rewrite bget_same by (unfold adim; rewrite Elu, !app_length; cbn; lia). unfold element at 1. rewrite Elu, clip_app by lia. cbn [clip Nat.eqb].
      rewrite (last_get' u 3 n s) by (try exact Hu; rewrite clip_length; lia). unfold q. rewrite clip_clip by exact Hr4.
      unfold element. rewrite Hu. cbn [clip Nat.eqb]. unfold k'. destruct (n =? 1)%nat; reflexivity. }
  intros i k p Hi Hk Hp. pose proof (inside_length _ _ Hp) as Lp. specialize (Hreg p Hp). rewrite Ha in Hreg. cbn [nth Nat.eqb] in Hreg.
  rewrite csum3. rewrite !Hel by assumption. unfold entry. rewrite Ha. cbn [nth Nat.eqb]. set (m := fun i j => element a (i :: j :: p)) in *.
  change (element a (i :: 0%nat :: p)) with (m i 0%nat). change (element a (i :: 1%nat :: p)) with (m i 1%nat). change (element a (i :: 2%nat :: p)) with (m i 2%nat).
  pose proof (tinv_entry (TMatrix (fun i j _ => m i j)) i 0 p Hreg Hi ltac:(lia)) as [_ E0]. pose proof (tinv_entry (TMatrix (fun i j _ => m i j)) i 1 p Hreg Hi ltac:(lia)) as [_ E1].
  pose proof (tinv_entry (TMatrix (fun i j _ => m i j)) i 2 p Hreg Hi ltac:(lia)) as [_ E2]. cbn [tentry tinv] in E0, E1, E2. rewrite csum3 in E0, E1, E2.
  change (inv3 (fun i0 j => m i0 j)) with (inv3 m) in *. rewrite !csum3.
  set (w := fun l => element u (l :: k :: p)).
  transitivity (eye i 0 * w 0%nat + eye i 1 * w 1%nat + eye i 2 * w 2%nat).
  - rewrite <- E0, <- E1, <- E2. unfold w. ring.
  - unfold eye, w. three i; cbn [Nat.eqb]; ring.
Qed.

(** ** One vector for all positions, and an array that should be rejected *)
Lemma repeat_clip gs p : inside gs p -> clip (repeat 1%nat (length gs)) p = repeat 0%nat (length gs).
Proof. induction 1 as [|n i gs p Hi H IH]; [reflexivity|]. cbn. rewrite IH. reflexivity. Qed.
Lemma assign_E_vector gs k a : Forall (fun n => 0 < n)%nat gs -> real_value k <> 0%R -> ashape a = 3%nat :: repeat 1%nat (length gs) ->
  exists out, assign_E true gs k (VArray a) = Ok out /\ reads 3 gs (get_E k out) (fun c _ => aget a (c :: repeat 0%nat (length gs))).
Proof.
  intros Hg Hk Ha. assert (adim a = length (3%nat :: gs)) as L by (unfold adim; rewrite Ha; cbn; rewrite repeat_length; reflexivity).
  assert (broadcasts a (3%nat :: gs)) as Hb.
  { split; [lia|]. rewrite lpad_same by exact L. rewrite Ha. constructor; [auto|apply ones_spatial]. }
  destruct (assign_E_value true gs k (VArray a) a Hg Hk (ex_intro _ _ (conj (times_square_array k a) eq_refl)) Hb) as (out & H1 & H2 & H3).
  exists out. split; [exact H1|]. split; [exact H2|]. intros c p Hc Hp. rewrite H3 by assumption.
  rewrite bget_same by (rewrite L; cbn; rewrite (inside_length _ _ Hp); reflexivity). unfold element. rewrite Ha. cbn [clip Nat.eqb]. rewrite repeat_clip by exact Hp. reflexivity.
Qed.
Lemma not_rejected : exists gs a, ~ broadcasts a (1%nat :: gs) /\ exists out, assign_E false gs (PyFloat 1) (VArray a) = Ok out.
Proof.
  exists [4%nat], (of_list [RtoC 1; RtoC 2]). split.
  - intros [_ H]. inversion H as [|? ? ? ? _ H1]; subst. inversion H1 as [|? ? ? ? H2 _]; subst. destruct H2; discriminate.
  - eexists. reflexivity.
Qed.
