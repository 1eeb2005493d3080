(** Proofs about the argument [grid] of Solution and Bound. *)
From Coq Require Import Reals Lra Lia List ZArith Bool ZifyBool ZifyNat.
From Verif Require Import Base Num Grid_Model Grid_Spec Grid_Proofs Grid_Rebuild Grid_Ops.
From Verif Require Import CSum Vec_Model Vec_Grid Entry_Model Entry_Spec.
Import ListNotations.
Local Open Scope R_scope.

Lemma nth_in_inside s p i : inside s p -> (i < length s)%nat -> (nth i p 0 < nth i s 1)%nat.
Proof.
  unfold inside. intros H. revert i. induction H as [|n j s p Hj H IH]; intros [|i] Hi; cbn in *; try lia.
  apply IH. lia.
Qed.
Lemma inside_length s p : inside s p -> length p = length s.
Proof. unfold inside. intros H. induction H; cbn; lia. Qed.

Lemma items_axes g : regular g -> multidimensional RN g = true ->
  items g = Ok (map (fun i => coords_of g i (axis_range RN g i)) (seq 0 (ndim RN g))).
Proof.
  intros Hg Hm. unfold items. rewrite Hm.
  assert (forall n m, (m + n <= ndim RN g)%nat ->
    fold_right (fun i rest => do l <- getitem_axis RN g (Z.of_nat i); do cs <- rest; Ok (coords_of g i l :: cs)) (Ok []) (seq m n)
    = Ok (map (fun i => coords_of g i (axis_range RN g i)) (seq m n))) as H.
  { induction n as [|n IH]; intros m Hmn; [reflexivity|]. cbn [seq fold_right map]. rewrite IH by lia.
    unfold getitem_axis. rewrite Hm, norm_index_nat by lia. destruct Hg as (-> & _). reflexivity. }
  apply H. lia.
Qed.
Lemma items_numbers g : regular g -> (0 < ndim RN g)%nat -> multidimensional RN g = false ->
  items g = Ok (map (fun j => Number (nth j (axis_range RN g 0) 0)) (seq 0 (points g 0))).
Proof.
  intros (_ & Hn & Hs) Hd Hm. specialize (Hs 0%nat Hd). unfold items. rewrite Hm.
  assert (forall n m, (m + n <= points g 0)%nat ->
    fold_right (fun i rest => do l <- getitem_axis RN g (Z.of_nat i); do cs <- rest; Ok (coords_of g i l :: cs)) (Ok []) (seq m n)
    = Ok (map (fun j => Number (nth j (axis_range RN g 0) 0)) (seq m n))) as H.
  { induction n as [|n IH]; intros m Hmn; [reflexivity|]. cbn [seq fold_right map]. rewrite IH by lia.
    unfold getitem_axis. rewrite Hm. replace (shape RN g 0%nat) with (Z.of_nat (points g 0)) by (unfold points; lia).
    rewrite norm_index_nat by lia. unfold coords_of. rewrite Hm. reflexivity. }
  apply H. unfold points. lia.
Qed.

(** The arrays of a spatial grid. *)
Definition gshape (g : grid RN) : list nat := map (points g) (seq 0 (ndim RN g)).
Lemma gshape_nth g i d : (i < ndim RN g)%nat -> nth i (gshape g) d = points g i.
Proof. intros H. unfold gshape. apply nth_map_seq_d. exact H. Qed.
Lemma gshape_length g : length (gshape g) = ndim RN g.
Proof. unfold gshape. rewrite map_length, seq_length. reflexivity. Qed.

Lemma along_at s l a p : inside s p -> (a < length s)%nat -> length l = nth a s 1%nat -> at_index (Along a l) p = nth (nth a p 0%nat) l 0.
Proof.
  intros Hp Ha Hl. cbn. destruct (Nat.eqb_spec (length l) 1) as [E|_]; [|reflexivity].
  pose proof (nth_in_inside s p a Hp Ha). replace (nth a p 0)%nat with 0%nat by lia. reflexivity.
Qed.

Lemma items_arrays g : regular g -> multidimensional RN g = true -> (forall i, (i < ndim RN g)%nat -> flat RN g i = false) ->
  exists cs, items g = Ok cs /\ arrays (gshape g) cs (ndim RN g) (fun i p => nth (nth i p 0%nat) (axis_range RN g i) 0).
Proof.
  intros Hg Hm Hf. eexists. split; [apply items_axes; assumption|]. split; [rewrite map_length, seq_length; reflexivity|].
  assert (forall i, (i < ndim RN g)%nat -> coords_of g i (axis_range RN g i) = Along i (axis_range RN g i)) as E
    by (intros i Hi; unfold coords_of; rewrite Hm, Hf by assumption; reflexivity).
  assert (forall i, length (axis_range RN g i) = points g i) as L by (intros i; apply axis_range_length).
  split.
  - intros c H. apply in_map_iff in H as (i & <- & H). apply in_seq in H. rewrite E by lia. cbn.
    rewrite gshape_nth by lia. setoid_rewrite L. rewrite Nat.eqb_refl. apply orb_true_r.
  - intros i p Hi Hp. exists (Along i (axis_range RN g i)). split.
    + rewrite nth_error_nth' with (d := Number 0) by (rewrite map_length, seq_length; exact Hi).
      rewrite nth_map_seq_d by exact Hi. rewrite E by exact Hi. reflexivity.
    + apply (along_at (gshape g)); [exact Hp|rewrite gshape_length; exact Hi|]. rewrite gshape_nth by exact Hi. apply L.
Qed.

(** The squares of the components add up. *)
Lemma fold_sum_app f cs c : fold_right (fun c acc => f c + acc) 0 (cs ++ [c]) = fold_right (fun (c : coords) acc => f c + acc) 0 cs + f c.
Proof. induction cs as [|x cs IH]; cbn; [lra|]. rewrite IH. lra. Qed.
Lemma fold_sum n (cs : list coords) f (v : nat -> R) : length cs = n -> (forall i, (i < n)%nat -> exists c, nth_error cs i = Some c /\ f c = v i) ->
  fold_right (fun c acc => f c + acc) 0 cs = rsum n v.
Proof.
  revert cs. induction n as [|n IH]; intros cs Hl H.
  - destruct cs; [reflexivity|discriminate].
  - destruct (@exists_last _ cs) as (cs' & c & ->); [destruct cs; [discriminate|intros E; discriminate]|].
    rewrite app_length in Hl. cbn in Hl. rewrite fold_sum_app. cbn [rsum]. rewrite (IH cs').
    + destruct (H n) as (c' & E & <-); [lia|]. rewrite nth_error_app2 in E by lia. replace (n - length cs')%nat with 0%nat in E by lia.
      injection E as <-. reflexivity.
    + lia.
    + intros i Hi. destruct (H i) as (c' & E & E'); [lia|]. exists c'. split; [|exact E']. rewrite nth_error_app1 in E by lia. exact E.
Qed.
Lemma squares s cs n v : arrays s cs n v -> exists f, backend_k2 s cs = Ok f /\ forall p, inside s p -> f p = rsum n (fun i => v i p * v i p).
Proof.
  intros (L & B & V). unfold backend_k2. assert (forallb (broadcasts s) cs = true) as -> by (apply forallb_forall; exact B).
  eexists. split; [reflexivity|]. intros p Hp. apply (fold_sum n cs (fun c => at_index c p * at_index c p)); [exact L|].
  intros i Hi. destruct (V i p Hi Hp) as (c & E & <-). exists c. split; [exact E|reflexivity].
Qed.

Lemma arrays_ext s cs n v w : arrays s cs n v -> (forall i p, (i < n)%nat -> inside s p -> v i p = w i p) -> arrays s cs n w.
Proof.
  intros (L & B & V) H. split; [exact L|]. split; [exact B|]. intros i p Hi Hp. destruct (V i p Hi Hp) as (c & E & E').
  exists c. split; [exact E|]. rewrite E'. apply H; assumption.
Qed.

(** The grid in units of the inverse of the wavenumber. *)
Lemma scaled g k0 : regular g -> exists h, mul RN g (OScalar RN DFlt k0) = Ok h /\ regular h /\ same_layout h g /\
  forall i, (i < ndim RN g)%nat -> step_of h i = k0 * step_of g i.
Proof.
  intros Hg. destruct (mul_ok g (OScalar RN DFlt k0) Hg I) as (h & E & R & L & V). exists h. split; [exact E|]. split; [exact R|].
  split; [exact L|]. intros i Hi. apply (V (fun _ => k0)); [intros; reflexivity|exact Hi].
Qed.
Lemma scaled_raster g h k0 : same_layout h g -> (forall i, (i < ndim RN g)%nat -> step_of h i = k0 * step_of g i) ->
  raster_of h = sampling k0 g.
Proof.
  intros (N & _ & L) S. unfold raster_of, sampling. rewrite N in *. f_equal; apply map_ext_in; intros i Hi; apply in_seq in Hi.
  - unfold points. destruct (L i) as (-> & _); [lia|reflexivity].
  - apply S. lia.
Qed.

Lemma wavevectors g k0 : regular g -> (forall i, (i < ndim RN g)%nat -> step_of g i <> 0) -> k0 <> 0 ->
  exists k, backend_k k0 g = items k /\ regular k /\ ndim RN k = ndim RN g /\ multidimensional RN k = multidimensional RN g /\
    (forall i, (i < ndim RN g)%nat -> flat RN k i = flat RN g i /\ points k i = points g i /\
      forall j p, (nth i p 0 < points g i)%nat -> j = nth i p 0%nat -> nth j (axis_range RN k i) 0 = kvec (sampling k0 g) i p).
Proof.
  intros Hg Hst Hk0. destruct (scaled g k0 Hg) as (h & Eh & Rh & Lh & Sh).
  assert (forall i, (i < ndim RN h)%nat -> step_of h i <> 0) as Hst'.
  { intros i Hi. destruct Lh as (N & _). rewrite Sh by lia. apply Rmult_integral_contrapositive. split; [exact Hk0|apply Hst; lia]. }
  destruct (f_ok h Rh Hst') as (f & Ef & Rf & Nf & Mf & Vf). destruct (k_ok h Rh Hst') as (f' & k & Ef' & Ek & Rk & (Nk & Mk & Lk) & _).
  rewrite Ef in Ef'. injection Ef' as <-. destruct (kvec_of_grid h Rh Hst') as (k' & Ek' & Vk). rewrite Ek in Ek'. injection Ek' as <-.
  pose proof (scaled_raster g h k0 Lh Sh) as Er. destruct Lh as (N & M & L).
  exists k. unfold backend_k. rewrite Eh. cbn [bind]. rewrite Ek. cbn [bind]. split; [reflexivity|]. split; [exact Rk|].
  split; [lia|]. split; [congruence|]. intros i Hi.
  destruct (Lk i) as (K1 & K2 & _); [lia|]. destruct (Vf i) as (F1 & F2 & _); [lia|]. destruct (L i) as (L1 & L2 & _); [lia|].
  split; [congruence|]. assert (points k i = points g i) as Ep by (unfold points; congruence). split; [exact Ep|].
  intros j p Hp ->. destruct (Vk i) as (l & El & _ & V); [lia|]. rewrite coordinates_range in El by (assumption || lia). injection El as El.
  rewrite El, V, Er; [reflexivity|]. unfold points in *. rewrite L1. exact Hp.
Qed.

Lemma spatial_entry g k0 : spatial g -> k0 <> 0 ->
  exists h xs ks k2f, solution_grid (AGrid g) = Ok h /\ same_grid h g /\
    items h = Ok xs /\ arrays (gshape g) xs (ndim RN g) (fun i p => nth (nth i p 0%nat) (axis_range RN g i) 0) /\
    backend_k k0 h = Ok ks /\ arrays (gshape g) ks (ndim RN g) (kvec (sampling k0 g)) /\
    backend_k2 (gshape g) ks = Ok k2f /\ forall p, inside (gshape g) p -> k2f p = k2 (sampling k0 g) p.
Proof.
  intros (Hg & Hm & Hf) Hk0. destruct (proj1 (views_ok g Hg)) as (h & Eh & Rh & Sh).
  pose proof Sh as (N & M & A).
  assert (forall i, points h i = points g i -> True) as _ by trivial.
  assert (gshape h = gshape g) as Es.
  { unfold gshape. rewrite N. apply map_ext_in. intros i Hi. apply in_seq in Hi. destruct (A i) as (A1 & _); [lia|]. unfold points. rewrite A1. reflexivity. }
  assert (sampling k0 h = sampling k0 g) as Er.
  { unfold sampling. rewrite N. f_equal; apply map_ext_in; intros i Hi; apply in_seq in Hi; destruct (A i) as (A1 & A2 & _); try lia.
    - unfold points. rewrite A1. reflexivity.
    - rewrite A2. reflexivity. }
  assert (forall i, (i < ndim RN h)%nat -> flat RN h i = false /\ step_of h i <> 0) as Hf'.
  { intros i Hi. destruct (A i) as (_ & A2 & _ & A4 & _); [lia|]. rewrite A2, A4. apply Hf. lia. }
  destruct (items_arrays h Rh) as (xs & Ex & Ax); [congruence|intros i Hi; apply Hf'; exact Hi|].
  destruct (wavevectors h k0 Rh) as (k & Ek & Rk & Nk & Mk & Vk); [intros i Hi; apply Hf'; exact Hi|exact Hk0|].
  destruct (items_arrays k Rk) as (ks & Eks & Aks); [congruence| |].
  { intros i Hi. destruct (Vk i) as (-> & _); [lia|]. apply Hf'. lia. }
  assert (gshape k = gshape g) as Esk.
  { rewrite <- Es. unfold gshape. rewrite Nk. apply map_ext_in. intros i Hi. apply in_seq in Hi. apply Vk. lia. }
  rewrite Es in Ax. rewrite Esk in Aks. rewrite N in Ax. rewrite Nk, N in Aks.
  assert (arrays (gshape g) ks (ndim RN g) (kvec (sampling k0 g))) as Ak.
  { eapply arrays_ext; [exact Aks|]. intros i p Hi Hp. cbn. rewrite <- Er. apply Vk; [lia| |reflexivity].
    pose proof (nth_in_inside _ _ i Hp) as H. rewrite gshape_length, gshape_nth in H by exact Hi. specialize (H Hi).
    destruct (A i) as (A1 & _); [lia|]. unfold points in *. rewrite A1. exact H. }
  destruct (squares _ _ _ _ Ak) as (k2f & E2 & V2).
  exists h, xs, ks, k2f. split; [exact Eh|]. split; [exact Sh|]. split; [exact Ex|]. split.
  { eapply arrays_ext; [exact Ax|]. intros i p Hi Hp. cbn. f_equal. destruct (A i) as (A1 & A2 & A3 & A4 & A5 & A6); [lia|].
    assert (coordinates h i = coordinates g i) as H by (apply same_axis_coordinates; [assumption..|lia|lia|]; apply A; lia).
    rewrite !coordinates_range in H by (assumption || lia). injection H as H. exact H. }
  split; [rewrite Ek; exact Eks|]. split; [exact Ak|]. split; [exact E2|]. intros p Hp. rewrite V2 by exact Hp.
  unfold k2, rndim. cbn [sampling rshape]. rewrite map_length, seq_length. reflexivity.
Qed.

(** Wave vectors at the origin and beside it. *)
Lemma k_zero n st : (1 <= n)%nat -> k_axis n st 0 = 0.
Proof. intros H. unfold k_axis, k_index. destruct (Nat.ltb_spec (2 * 0) n); [cbn; unfold Rdiv; ring|lia]. Qed.
Lemma k_one n st : (2 <= n)%nat -> st <> 0 -> k_axis n st 1 <> 0.
Proof.
  intros H Hst. unfold k_axis. assert (k_index n 1 <> 0)%Z as K by (unfold k_index; destruct (Nat.ltb_spec (2 * 1) n); lia).
  assert (0 < INR n) by (apply lt_0_INR; lia). pose proof PI_RGT_0.
  unfold Rdiv. apply Rmult_integral_contrapositive. split.
  - apply Rmult_integral_contrapositive. split; [lra|]. apply not_0_IZR. exact K.
  - apply Rinv_neq_0_compat. apply Rmult_integral_contrapositive. split; lra.
Qed.
Lemma kvec_sampling g k0 i p : (i < ndim RN g)%nat -> kvec (sampling k0 g) i p = k_axis (points g i) (k0 * step_of g i) (nth i p 0%nat).
Proof. intros H. unfold kvec, sampling. cbn [rshape rstep]. rewrite !nth_map_seq_d by exact H. reflexivity. Qed.
Lemma fold_nonneg (cs : list coords) f : (forall c, 0 <= f c) -> 0 <= fold_right (fun c acc => f c + acc) 0 cs.
Proof. intros H. induction cs as [|c cs IH]; cbn; [lra|]. specialize (H c). lra. Qed.
Lemma fold_positive (cs : list coords) f c : (forall c, 0 <= f c) -> In c cs -> 0 < f c -> 0 < fold_right (fun c acc => f c + acc) 0 cs.
Proof.
  intros H. induction cs as [|x cs IH]; cbn; [intros []|]. intros [->|Hin] Hc.
  - pose proof (fold_nonneg cs f H). lra.
  - specialize (IH Hin Hc). specialize (H x). lra.
Qed.

Lemma same_sampling h g k0 : same_grid h g -> sampling k0 h = sampling k0 g /\ gshape h = gshape g.
Proof.
  intros (N & _ & A). unfold sampling, gshape. rewrite N in *.
  assert (map (points h) (seq 0 (ndim RN g)) = map (points g) (seq 0 (ndim RN g))) as E.
  { apply map_ext_in. intros i Hi. apply in_seq in Hi. destruct (A i) as (A1 & _); [lia|]. unfold points. rewrite A1. reflexivity. }
  split; [|exact E]. rewrite E. f_equal. apply map_ext_in. intros i Hi. apply in_seq in Hi. destruct (A i) as (_ & A2 & _); [lia|].
  rewrite A2. reflexivity.
Qed.

Lemma scalar_entry g k0 : regular g -> multidimensional RN g = false -> (2 <= points g 0)%nat -> step_of g 0 <> 0 -> k0 <> 0 ->
  exists h xs ks k2f, solution_grid (AGrid g) = Ok h /\ items h = Ok xs /\ length xs = points g 0 /\
    backend_k k0 h = Ok ks /\ backend_k2 [points g 0] ks = Ok k2f /\ (forall p q, k2f p = k2f q) /\
    k2f [0%nat] <> k2 (sampling k0 g) [0%nat].
Proof.
  intros Hg Hm Hp Hst Hk0. assert (ndim RN g = 1%nat) as Hn by (apply Hg; exact Hm).
  destruct (proj1 (views_ok g Hg)) as (h & Eh & Rh & Sh). pose proof Sh as (N & M & A).
  destruct (A 0%nat) as (A1 & A2 & _); [lia|]. assert (points h 0 = points g 0) as Ep by (unfold points; rewrite A1; reflexivity).
  destruct (wavevectors h k0 Rh) as (k & Ek & Rk & Nk & Mk & Vk); [|exact Hk0|].
  { intros i Hi. replace i with 0%nat by lia. rewrite A2. exact Hst. }
  destruct (Vk 0%nat) as (_ & Epk & V); [lia|].
  rewrite items_numbers in Ek; [|exact Rk|lia|congruence].
  set (ks := map (fun j => Number (nth j (axis_range RN k 0) 0)) (seq 0 (points k 0))) in *.
  exists h, (map (fun j => Number (nth j (axis_range RN h 0) 0)) (seq 0 (points h 0))), ks.
  eexists. split; [exact Eh|]. split; [apply items_numbers; [exact Rh|lia|congruence]|].
  split; [rewrite map_length, seq_length; exact Ep|]. split; [exact Ek|].
  assert (forall c, In c ks -> exists x, c = Number x) as Hc.
  { intros c H. apply in_map_iff in H as (j & <- & _). eexists. reflexivity. }
  unfold backend_k2. assert (forallb (broadcasts [points g 0]) ks = true) as ->.
  { apply forallb_forall. intros c H. destruct (Hc c H) as (x & ->). reflexivity. }
  split; [reflexivity|]. split.
  { intros p q. clear Ek. clearbody ks. induction ks as [|c ks IH]; [reflexivity|]. cbn. rewrite IH by (intros c' H'; apply Hc; right; exact H').
    destruct (Hc c) as (x & ->); [left; reflexivity|]. reflexivity. }
  assert (k2 (sampling k0 g) [0%nat] = 0) as ->.
  { unfold k2, rndim. cbn [sampling rshape]. rewrite map_length, seq_length, Hn. cbn [rsum]. rewrite kvec_sampling by lia.
    cbn [nth]. rewrite k_zero by lia. ring. }
  apply Rgt_not_eq. apply (fold_positive ks (fun c => at_index c [0%nat] * at_index c [0%nat]) (Number (nth 1 (axis_range RN k 0) 0))).
  - intros c. apply Rle_0_sqr.
  - unfold ks. apply in_map_iff. exists 1%nat. split; [reflexivity|]. apply in_seq. lia.
  - cbn [at_index]. apply Rsqr_pos_lt. rewrite (V 1%nat [1%nat]); [|cbn; lia|reflexivity]. rewrite kvec_sampling by lia. cbn [nth].
    apply k_one; [lia|]. rewrite A2. apply Rmult_integral_contrapositive. split; [exact Hk0|exact Hst].
Qed.

Lemma flat_entry g k0 : regular g -> multidimensional RN g = true -> ndim RN g = 2%nat ->
  (forall i, (i < 2)%nat -> flat RN g i = true /\ step_of g i <> 0) -> points g 0 = points g 1 -> (2 <= points g 0)%nat -> k0 <> 0 ->
  exists h ks k2f, solution_grid (AGrid g) = Ok h /\ backend_k k0 h = Ok ks /\ backend_k2 (gshape g) ks = Ok k2f /\
    (forall i j j', k2f [i; j] = k2f [j'; j]) /\ k2f [1%nat; 0%nat] <> k2 (sampling k0 g) [1%nat; 0%nat].
Proof.
  intros Hg Hm Hn Hf Hsq Hp Hk0. destruct (proj1 (views_ok g Hg)) as (h & Eh & Rh & Sh). pose proof Sh as (N & M & A).
  assert (forall i, (i < 2)%nat -> flat RN h i = true /\ step_of h i = step_of g i /\ points h i = points g i) as H.
  { intros i Hi. destruct (A i) as (A1 & A2 & _ & A4 & _); [lia|]. rewrite A4, A2. split; [apply Hf; exact Hi|]. split; [reflexivity|].
    unfold points. rewrite A1. reflexivity. }
  destruct (wavevectors h k0 Rh) as (k & Ek & Rk & Nk & Mk & Vk); [|exact Hk0|].
  { intros i Hi. destruct (H i) as (_ & -> & _); [lia|]. apply Hf. lia. }
  rewrite items_axes in Ek by (congruence || assumption). rewrite Nk, N, Hn in Ek. cbn [seq map] in Ek.
  destruct (Vk 0%nat) as (F0 & P0 & V0); [lia|]. destruct (Vk 1%nat) as (F1 & P1 & V1); [lia|].
  destruct (H 0%nat) as (H0 & S0 & Q0); [lia|]. destruct (H 1%nat) as (H1 & S1 & Q1); [lia|].
  unfold coords_of in Ek. rewrite Mk, M, Hm, F0, F1, H0, H1 in Ek.
  assert (forall i, length (axis_range RN k i) = points k i) as L by (intros i; apply axis_range_length).
  exists h. do 2 eexists. split; [exact Eh|]. split; [exact Ek|].
  assert (gshape g = [points g 0; points g 1]) as Es by (unfold gshape; rewrite Hn; reflexivity).
  unfold backend_k2. rewrite Es. cbn [forallb broadcasts last]. setoid_rewrite L. rewrite P0, P1, Q0, Q1, <- Hsq, Nat.eqb_refl, orb_true_r. cbn [andb].
  split; [reflexivity|]. split; [intros i j j'; reflexivity|]. cbn [fold_right].
  assert (forall i, (i < 2)%nat -> at_index (LastAxis (axis_range RN k i)) [1%nat; 0%nat] = 0) as Z.
  { intros i Hi. cbn [at_index last]. replace (if Nat.eqb (@length R (axis_range RN k i)) 1 then 0%nat else 0%nat) with 0%nat by (destruct (Nat.eqb _ _); reflexivity).
    destruct (Vk i) as (_ & _ & V); [lia|]. destruct (H i) as (_ & _ & Qi); [lia|].
    assert (2 <= points g i)%nat by (destruct i as [|[|i]]; lia).
    etransitivity; [apply (V 0%nat [0%nat; 0%nat])|]; [destruct i as [|[|i]]; cbn; lia|destruct i as [|[|i]]; [reflexivity|reflexivity|lia]|].
    rewrite kvec_sampling by lia. replace (nth i [0%nat; 0%nat] 0%nat) with 0%nat by (destruct i as [|[|i]]; [..|lia]; reflexivity).
    apply k_zero. lia. }
  rewrite !Z by lia. unfold k2, rndim. cbn [sampling rshape]. rewrite map_length, seq_length, Hn. cbn [rsum].
  rewrite !kvec_sampling by lia. cbn [nth]. rewrite (k_zero (points g 1)) by lia.
  pose proof (k_one (points g 0) (k0 * step_of g 0) Hp) as K. intros E. apply K; [apply Rmult_integral_contrapositive; split; [exact Hk0|apply Hf; lia]|].
  apply Rsqr_0_uniq. unfold Rsqr. lra.
Qed.

(** Sequences of ranges. *)
Lemma ranges_flat d rs g i : from_ranges RN d rs = Ok g -> (i < ndim RN g)%nat -> flat RN g i = false.
Proof.
  intros E Hi. unfold from_ranges in E. destruct (existsb _ _); [discriminate|]. cbv zeta in E.
  destruct (construct_agrees _ _ i E Hi) as (_ & _ & _ & _ & _ & _ & F & _). apply F. cbn. reflexivity.
Qed.
Lemma ranges_step g i x y : regular g -> (i < ndim RN g)%nat -> forall l, coordinates g i = Ok l -> In x l -> In y l -> x <> y -> step_of g i <> 0.
Proof.
  intros Hg Hi l El Hx Hy Hxy E. destruct (grid_coordinates g i Hg Hi) as (l' & m & El' & Ll & Lm & Vm & _ & Ht & Hf).
  rewrite El in El'. injection El' as <-.
  assert (forall z, In z l -> z = first RN g i) as H.
  { intros z Hz. assert (In z m) as Hz'.
    { destruct (origin_at_center RN g i); [rewrite <- Ht by reflexivity; exact Hz|].
      destruct Hf as (P & _); [reflexivity|]. eapply Permutation.Permutation_in; [exact P|exact Hz]. }
    apply In_nth with (d := 0) in Hz' as (j & Hj & <-). rewrite Vm by lia. rewrite E. ring. }
  apply Hxy. rewrite (H x Hx), (H y Hy). reflexivity.
Qed.

Lemma ranges_entry d rs : rs <> [] -> (forall r, In r rs -> is_range r /\ exists x y, In x r /\ In y r /\ x <> y) ->
  exists g, solution_grid (ARanges d rs) = Ok g /\ spatial g /\ ndim RN g = length rs /\
    (forall i, (i < length rs)%nat -> coordinates g i = Ok (nth i rs [])).
Proof.
  intros Hne Hr. destruct (from_ranges_ok d rs) as (g & E & R & N & M & V); [intros r H; apply Hr; exact H|].
  destruct (proj1 (views_ok g R)) as (h & Eh & Rh & (Nh & Mh & Ah)).
  exists h. assert (solution_grid (ARanges d rs) = Ok h) as ES.
  { destruct rs as [|r rs]; [contradiction|]. cbn [solution_grid]. rewrite E. cbn [bind]. exact Eh. }
  assert (forall i, (i < length rs)%nat -> coordinates h i = Ok (nth i rs [])) as Vh.
  { intros i Hi. rewrite <- (V i Hi). apply same_axis_coordinates; [assumption..|lia|lia|]. apply Ah. lia. }
  split; [exact ES|]. split.
  - split; [exact Rh|]. split; [congruence|]. intros i Hi. split.
    + destruct (Ah i) as (_ & _ & _ & -> & _); [exact Hi|]. apply (ranges_flat d rs); [exact E|lia].
    + destruct (Hr (nth i rs [])) as (_ & x & y & Hx & Hy & Hxy); [apply nth_In; lia|].
      apply (ranges_step h i x y Rh Hi _ (Vh i ltac:(lia)) Hx Hy Hxy).
  - split; [lia|]. exact Vh.
Qed.
Lemma numbers_entry d l : is_range l -> (exists x y, In x l /\ In y l /\ x <> y) ->
  solution_grid (ANumbers d l) = solution_grid (ARanges d [l]) /\ bound_grid (ANumbers d l) = from_ranges RN d [l].
Proof. intros _ (x & _ & H & _). split; [|reflexivity]. destruct l; [destruct H|]. reflexivity. Qed.

Lemma bound_first d r rs : is_range r -> List.Forall (fun x => length x = length r) rs ->
  exists g, bound_grid (ARanges d (r :: rs)) = Ok g /\ ndim RN g = 1%nat /\ coordinates g 0 = Ok r.
Proof.
  intros Hr H. destruct (from_ranges_ok d [r]) as (g & E & R & N & M & V); [intros x [<-|[]]; exact Hr|]. exists g.
  cbn [bound_grid]. assert (forallb (fun x => Nat.eqb (length x) (length r)) rs = true) as ->.
  { apply forallb_forall. intros x Hx. rewrite Forall_forall in H. apply Nat.eqb_eq. apply H. exact Hx. }
  split; [exact E|]. split; [exact N|]. apply (V 0%nat). cbn. lia.
Qed.
Lemma bound_ragged d r rs x : In x rs -> length x <> length r -> bound_grid (ARanges d (r :: rs)) = Err ValueError.
Proof.
  intros Hx H. cbn [bound_grid]. destruct (forallb _ rs) eqn:E; [|reflexivity]. rewrite forallb_forall in E. specialize (E x Hx).
  apply Nat.eqb_eq in E. contradiction.
Qed.
