(** Proofs about arrays of tensors. *)
From Coq Require Import Reals Lra List Arith Bool ZArith Lia.
Require Import Verif.Base Verif.Cplx Verif.CSum Verif.Array_Model Verif.Array_Spec Verif.Solver_Model.
Import ListNotations.
Local Open Scope R_scope.
Local Open Scope C_scope.

Lemma csum1 f : csum 1 f = f 0%nat.
Proof. unfold csum. cbn. ring. Qed.

(** ** Broadcasting *)
Lemma Forall2_length {A B} (P : A -> B -> Prop) l m : Forall2 P l m -> length l = length m.
Proof. induction 1; cbn; congruence. Qed.
Lemma spatial_length gs s : spatial gs s -> length s = length gs.
Proof. intros H. symmetry. exact (Forall2_length _ _ _ H). Qed.
Lemma inside_length gs p : inside gs p -> length p = length gs.
Proof. intros H. symmetry. exact (Forall2_length _ _ _ H). Qed.
Lemma bdim_cases n d e : (d = n \/ d = 1)%nat -> (e = n \/ e = 1)%nat -> exists r, bdim d e = Some r /\ (r = n \/ r = 1)%nat /\ (r = 1 -> d = 1 /\ e = 1)%nat.
Proof.
  intros Hd He. unfold bdim. destruct (Nat.eqb_spec d e) as [->|Hde].
  - exists e. split; [reflexivity|]. split; [exact He|]. tauto.
  - destruct (Nat.eqb_spec d 1) as [->|].
    + exists e. split; [reflexivity|]. split; [exact He|]. lia.
    + destruct (Nat.eqb_spec e 1) as [->|]; [|lia]. exists d. split; [reflexivity|]. split; [exact Hd|]. lia.
Qed.
Lemma bzip_spatial gs s t : spatial gs s -> spatial gs t -> exists r, bzip s t = Some r /\ spatial gs r /\ Forall2 (fun x y => x = 1 -> y = 1)%nat r s /\ Forall2 (fun x y => x = 1 -> y = 1)%nat r t.
Proof.
  intros H. revert t. induction H as [|n d gs s Hd Hs IH]; intros t Ht; inversion Ht as [|? e ? t' He Ht']; subst.
  - exists []. repeat split; constructor.
  - destruct (IH t' Ht') as (r & Er & Hr & H1 & H2). destruct (bdim_cases n d e Hd He) as (x & Ex & Hx & Hx1).
    exists (x :: r). cbn. rewrite Ex, Er. split; [reflexivity|]. split; [constructor; assumption|]. split; constructor; tauto.
Qed.
Lemma clip_clip r s p : Forall2 (fun x y => x = 1 -> y = 1)%nat r s -> clip s (clip r p) = clip s p.
Proof.
  intros H. revert p. induction H as [|x y r s Hx Hr IH]; intros [|i p]; try reflexivity. cbn. rewrite IH. f_equal.
  destruct (Nat.eqb_spec y 1) as [|Hy]; [reflexivity|]. destruct (Nat.eqb_spec x 1); [tauto|reflexivity].
Qed.
Lemma clip_length s p : length p = length s -> length (clip s p) = length s.
Proof. revert p. induction s as [|n s IH]; intros [|i p] H; cbn in *; try congruence. rewrite IH; [reflexivity|congruence]. Qed.
Lemma lpad_same n s : length s = n -> lpad n s = s.
Proof. intros <-. unfold lpad. rewrite Nat.sub_diag. reflexivity. Qed.
Lemma bshape_same s t : length s = length t -> bshape s t = bzip s t.
Proof. intros H. unfold bshape. rewrite H, Nat.max_id. rewrite !lpad_same by congruence. reflexivity. Qed.
Lemma bget_same a p : length p = adim a -> bget a p = element a p.
Proof. intros H. unfold bget, element. rewrite H, Nat.sub_diag. reflexivity. Qed.

(** An elementwise operation on arrays with matrices of m x m' and n x n' elements. *)
Lemma abin_elements f a b gs m m' s n n' t d d' : ashape a = m :: m' :: s -> ashape b = n :: n' :: t -> spatial gs s -> spatial gs t ->
  bdim m n = Some d -> bdim m' n' = Some d' ->
  (d = 1 -> m = 1 /\ n = 1)%nat -> (d' = 1 -> m' = 1 /\ n' = 1)%nat ->
  exists c r, abin f a b = Ok c /\ ashape c = d :: d' :: r /\ spatial gs r /\
    forall i j p, length p = length gs -> element c (i :: j :: p) = f (element a (i :: j :: p)) (element b (i :: j :: p)).
Proof.
  intros Ha Hb Hs Ht Hd Hd' H1 H1'. destruct (bzip_spatial gs s t Hs Ht) as (r & Er & Hr & Hrs & Hrt).
  unfold abin. rewrite bshape_same by (rewrite Ha, Hb; cbn; apply spatial_length in Hs; apply spatial_length in Ht; congruence).
  rewrite Ha, Hb. cbn [bzip]. rewrite Hd, Hd', Er.
  exists (Arr (d :: d' :: r) (fun p => f (bget a p) (bget b p))), r.
  split; [reflexivity|]. split; [reflexivity|]. split; [exact Hr|]. intros i j p Hp.
  assert (length (clip (d :: d' :: r) (i :: j :: p)) = Datatypes.S (Datatypes.S (length gs))) as Hl.
  { rewrite clip_length; cbn; apply spatial_length in Hr; congruence. }
  change (element (Arr (d :: d' :: r) (fun p => f (bget a p) (bget b p))) (i :: j :: p))
    with (f (bget a (clip (d :: d' :: r) (i :: j :: p))) (bget b (clip (d :: d' :: r) (i :: j :: p)))).
  assert (forall x u u' v, ashape x = u :: u' :: v -> (d = 1 -> u = 1)%nat -> (d' = 1 -> u' = 1)%nat -> Forall2 (fun x y => x = 1 -> y = 1)%nat r v ->
    bget x (clip (d :: d' :: r) (i :: j :: p)) = element x (i :: j :: p)) as K.
  { intros x u u' v Hx Hu Hu' Hv. rewrite bget_same.
    - unfold element. rewrite Hx. f_equal. apply clip_clip. constructor; [exact Hu|]. constructor; assumption.
    - rewrite Hl. unfold adim. rewrite Hx. cbn. pose proof (Forall2_length _ _ _ Hv). apply spatial_length in Hr. congruence. }
  rewrite (K a m m' s), (K b n n' t) by (try assumption; tauto). reflexivity.
Qed.
Lemma aswap_element a m n s i j p : ashape a = m :: n :: s -> element (aswap a) (i :: j :: p) = element a (j :: i :: p).
Proof. intros H. unfold element, aswap. cbn [ashape aget]. rewrite H. reflexivity. Qed.
Lemma amap_element f a p : element (amap f a) p = f (element a p).
Proof. reflexivity. Qed.
Lemma ones_spatial gs : spatial gs (repeat 1%nat (length gs)).
Proof. induction gs as [|n gs IH]; cbn; constructor; [right; reflexivity|exact IH]. Qed.
Lemma identity_element nv (gs : list nat) i j (p : list nat) : length p = length gs -> (i < nv)%nat -> (j < nv)%nat -> element (identity nv (length gs)) (i :: j :: p) = eye i j.
Proof.
  intros Hp Hi Hj. unfold element, identity. cbn [ashape aget clip nth]. destruct (Nat.eqb_spec nv 1) as [->|]; [|reflexivity].
  replace i with 0%nat by lia. replace j with 0%nat by lia. reflexivity.
Qed.

Lemma is_scalar_shape a m n s : ashape a = m :: n :: s -> is_scalar a = ((m =? 1) && (n =? 1))%nat.
Proof. intros H. unfold is_scalar. rewrite H. destruct s; reflexivity. Qed.
(** ** to_matrix_field *)
Lemma tmf_same nd a m n s : ashape a = m :: n :: s -> length s = nd -> ~ (m = 1 /\ 1 < n)%nat -> to_matrix_field nd a = a.
Proof.
  intros H Hs Hn. unfold to_matrix_field, adim. rewrite H. cbn [length]. replace (nd + 2 - Datatypes.S (Datatypes.S (length s)))%nat with 0%nat by lia. cbn [Nat.iter nat_rect].
  rewrite H. cbn [nth]. destruct (Nat.eqb_spec m 1); [|reflexivity]. destruct (Nat.ltb_spec 1 n); [tauto|reflexivity].
Qed.
Lemma expand_iter k a : ashape (Nat.iter k expand0 a) = repeat 1%nat k ++ ashape a /\ forall p, aget (Nat.iter k expand0 a) p = aget a (skipn k p).
Proof.
  induction k as [|k [IH1 IH2]]; [split; reflexivity|].
  change (Nat.iter (Datatypes.S k) expand0 a) with (expand0 (Nat.iter k expand0 a)). split.
  - cbn [expand0 ashape]. rewrite IH1. reflexivity.
  - intros p. cbn [expand0 aget]. rewrite IH2. destruct p; cbn; [rewrite skipn_nil|]; reflexivity.
Qed.
Lemma tmf_expand nd a : (adim a <= nd)%nat -> ashape (to_matrix_field nd a) = repeat 1%nat (nd + 2 - adim a) ++ ashape a /\
  forall p, aget (to_matrix_field nd a) p = aget a (skipn (nd + 2 - adim a) p).
Proof.
  intros H. unfold to_matrix_field. set (k := (nd + 2 - adim a)%nat). destruct (expand_iter k a) as [H1 H2].
  assert (exists k', k = (2 + k')%nat) as (k' & Hk) by (exists (k - 2)%nat; lia).
  assert (nth 0 (ashape (Nat.iter k expand0 a)) 0 =? 1 = true /\ nth 1 (ashape (Nat.iter k expand0 a)) 0 = 1)%nat as (-> & ->).
  { rewrite H1, Hk. split; reflexivity. }
  cbn. split; assumption.
Qed.
Lemma tmf_number nd x : ashape (to_matrix_field nd (number x)) = repeat 1%nat (2 + nd) /\ forall p, aget (to_matrix_field nd (number x)) p = x.
Proof. destruct (tmf_expand nd (number x)) as [H1 H2]; [cbn; lia|]. split; [rewrite H1; cbn [adim number ashape length]; rewrite app_nil_r; f_equal; lia|]. intros p. rewrite H2. reflexivity. Qed.

(** ** Refinement of the operations of the solver model *)
Section Tensors.
  Variable gs : list nat.
  Lemma rep_length (p : list nat) : inside gs p -> length p = length gs.
  Proof. apply inside_length. Qed.
  Lemma eye_times x s nv : ashape x = 1%nat :: 1%nat :: s -> spatial gs s ->
    exists c r, abin Cmult (identity nv (length gs)) x = Ok c /\ ashape c = nv :: nv :: r /\ spatial gs r /\
      forall i j p, (i < nv)%nat -> (j < nv)%nat -> length p = length gs -> element c (i :: j :: p) = eye i j * element x (0%nat :: 0%nat :: p).
  Proof.
    intros Hx Hs. destruct (abin_elements Cmult (identity nv (length gs)) x gs nv nv (repeat 1%nat (length gs)) 1 1 s nv nv) as (c & r & H1 & H2 & H3 & H4);
      try assumption; try reflexivity; try apply ones_spatial; try lia.
    - unfold bdim. destruct (Nat.eqb_spec nv 1); reflexivity.
    - unfold bdim. destruct (Nat.eqb_spec nv 1); reflexivity.
    - exists c, r. split; [exact H1|]. split; [exact H2|]. split; [exact H3|]. intros i j p Hi Hj Hp. rewrite H4 by exact Hp.
      rewrite identity_element by assumption. f_equal. unfold element. rewrite Hx. reflexivity.
  Qed.
  Lemma subtract_rep a b ta tb : represents gs a ta -> represents gs b tb ->
    exists c, subtract 3 (length gs) a b = Ok c /\ represents gs c (tsub ta tb).
  Proof.
    intros Ha Hb. unfold subtract.
    destruct ta as [f|m]; destruct tb as [g|n]; cbn in Ha, Hb; destruct Ha as (s & Hsa & Hs & Ha); destruct Hb as (t & Hsb & Ht & Hb);
      rewrite (is_scalar_shape a _ _ _ Hsa), (is_scalar_shape b _ _ _ Hsb); cbn [Nat.eqb andb bind].
    - destruct (abin_elements Cminus a b gs 1 1 s 1 1 t 1 1) as (c & r & H1 & H2 & H3 & H4); try assumption; try reflexivity; try tauto.
      exists c. split; [exact H1|]. exists r. split; [exact H2|]. split; [exact H3|]. intros p Hp. rewrite H4, Ha, Hb by (try apply rep_length; exact Hp). reflexivity.
    - rewrite (tmf_same _ a _ _ _ Hsa) by (try (apply spatial_length; exact Hs); lia).
      destruct (eye_times a s 3 Hsa Hs) as (x & r & -> & Hx & Hr & Ex). cbn [bind].
      destruct (abin_elements Cminus x b gs 3 3 r 3 3 t 3 3) as (c & r' & H1 & H2 & H3 & H4); try assumption; try reflexivity; try lia.
      exists c. split; [exact H1|]. exists r'. split; [exact H2|]. split; [exact H3|]. intros i j p Hi Hj Hp.
      rewrite H4, Ex, Ha, Hb by (try apply rep_length; assumption). reflexivity.
    - rewrite (tmf_same _ b _ _ _ Hsb) by (try (apply spatial_length; exact Ht); lia).
      destruct (eye_times b t 3 Hsb Ht) as (x & r & -> & Hx & Hr & Ex). cbn [bind].
      destruct (abin_elements Cminus a x gs 3 3 s 3 3 r 3 3) as (c & r' & H1 & H2 & H3 & H4); try assumption; try reflexivity; try lia.
      exists c. split; [exact H1|]. exists r'. split; [exact H2|]. split; [exact H3|]. intros i j p Hi Hj Hp.
      rewrite H4, Ex, Ha, Hb by (try apply rep_length; assumption). reflexivity.
    - destruct (abin_elements Cminus a b gs 3 3 s 3 3 t 3 3) as (c & r' & H1 & H2 & H3 & H4); try assumption; try reflexivity; try lia.
      exists c. split; [exact H1|]. exists r'. split; [exact H2|]. split; [exact H3|]. intros i j p Hi Hj Hp.
      rewrite H4, Ha, Hb by (try apply rep_length; assumption). reflexivity.
  Qed.
  (** einsum of n x 3 and 3 x k matrices (or n x 1 and 1 x k). *)
  Lemma einsum_elements a b m j s n t : ashape a = m :: j :: s -> ashape b = j :: n :: t -> spatial gs s -> spatial gs t ->
    exists c r, einsum a b = Ok c /\ ashape c = m :: n :: r /\ spatial gs r /\
      forall i k p, (i < m)%nat -> (k < n)%nat -> length p = length gs ->
        element c (i :: k :: p) = csum j (fun l => element a (i :: l :: p) * element b (l :: k :: p)).
  Proof.
    intros Ha Hb Hs Ht. destruct (bzip_spatial gs s t Hs Ht) as (r & Er & Hr & Hrs & Hrt).
    unfold einsum. rewrite Ha, Hb. unfold bdim. rewrite Nat.eqb_refl, Er. eexists. exists r. split; [reflexivity|]. split; [reflexivity|]. split; [exact Hr|].
    intros i k p Hi Hk Hp. unfold element at 1. cbn [ashape aget clip]. apply csum_ext. intros l Hl.
    assert (length (clip r p) = length gs) as Hl' by (rewrite clip_length; apply spatial_length in Hr; congruence).
    apply spatial_length in Hs as Ls. apply spatial_length in Ht as Lt.
    rewrite !bget_same by (unfold adim; rewrite ?Ha, ?Hb; cbn; congruence). unfold element. rewrite Ha, Hb. cbn [clip].
    rewrite !(clip_clip r) by assumption. f_equal; f_equal; f_equal.
    - destruct (Nat.eqb_spec m 1); [|reflexivity]. reflexivity.
    - f_equal. destruct (Nat.eqb_spec n 1); reflexivity.
  Qed.
  Lemma mul_rep a b ta tb : represents gs a ta -> represents gs b tb -> exists c, mul a b = Ok c /\ represents gs c (tmul ta tb).
  Proof.
    intros Ha Hb. unfold mul.
    destruct ta as [f|m]; destruct tb as [g|n]; cbn in Ha, Hb; destruct Ha as (s & Hsa & Hs & Ha); destruct Hb as (t & Hsb & Ht & Hb);
      rewrite (is_scalar_shape a _ _ _ Hsa), (is_scalar_shape b _ _ _ Hsb); cbn [Nat.eqb andb orb].
    - destruct (abin_elements Cmult a b gs 1 1 s 1 1 t 1 1) as (c & r & H1 & H2 & H3 & H4); try assumption; try reflexivity; try tauto.
      exists c. split; [exact H1|]. exists r. split; [exact H2|]. split; [exact H3|]. intros p Hp. rewrite H4, Ha, Hb by (try apply rep_length; exact Hp). reflexivity.
    - destruct (abin_elements Cmult a b gs 1 1 s 3 3 t 3 3) as (c & r & H1 & H2 & H3 & H4); try assumption; try reflexivity; try lia.
      exists c. split; [exact H1|]. exists r. split; [exact H2|]. split; [exact H3|]. intros i j p Hi Hj Hp.
      rewrite H4, Hb by (try apply rep_length; assumption). f_equal. rewrite <- Ha by exact Hp. unfold element. rewrite Hsa. reflexivity.
    - destruct (abin_elements Cmult a b gs 3 3 s 1 1 t 3 3) as (c & r & H1 & H2 & H3 & H4); try assumption; try reflexivity; try lia.
      exists c. split; [exact H1|]. exists r. split; [exact H2|]. split; [exact H3|]. intros i j p Hi Hj Hp.
      rewrite H4, Ha by (try apply rep_length; assumption). f_equal. rewrite <- Hb by exact Hp. unfold element. rewrite Hsb. reflexivity.
    - destruct (einsum_elements a b 3 3 s 3 t Hsa Hsb Hs Ht) as (c & r & H1 & H2 & H3 & H4).
      exists c. split; [exact H1|]. exists r. split; [exact H2|]. split; [exact H3|]. intros i j p Hi Hj Hp.
      rewrite H4 by (try apply rep_length; assumption). apply csum_ext. intros l Hl. rewrite Ha, Hb by assumption. reflexivity.
  Qed.
  Lemma adjoint_rep a ta : represents gs a ta -> represents gs (adjoint a) (tadjoint ta).
  Proof.
    intros Ha. destruct ta as [f|m]; destruct Ha as (s & Hsa & Hs & Ha).
    - exists s. split; [unfold adjoint, amap, aswap; cbn [ashape]; rewrite Hsa; reflexivity|]. split; [exact Hs|]. intros p Hp. unfold adjoint. rewrite amap_element.
      rewrite (aswap_element a _ _ _ _ _ _ Hsa), Ha by exact Hp. reflexivity.
    - exists s. split; [unfold adjoint, amap, aswap; cbn [ashape]; rewrite Hsa; reflexivity|]. split; [exact Hs|]. intros i j p Hi Hj Hp. unfold adjoint. rewrite amap_element.
      rewrite (aswap_element a _ _ _ _ _ _ Hsa), Ha by assumption. reflexivity.
  Qed.
  (** mul of a tensor and a vector field. *)
  Lemma mul_vector_rep a b ta : represents gs a ta -> vector_array 3 gs b ->
    exists c, mul a b = Ok c /\ vector_array 3 gs c /\ forall i p, (i < 3)%nat -> inside gs p -> component c i p = tapply ta (component b) i p.
  Proof.
    intros Ha (t & Hsb & Ht). unfold mul. rewrite (is_scalar_shape b _ _ _ Hsb). cbn [Nat.eqb andb]. rewrite orb_false_r.
    destruct ta as [f|m]; destruct Ha as (s & Hsa & Hs & Ha); rewrite (is_scalar_shape a _ _ _ Hsa); cbn [Nat.eqb andb].
    - destruct (abin_elements Cmult a b gs 1 1 s 3 1 t 3 1) as (c & r & H1 & H2 & H3 & H4); try assumption; try reflexivity; try lia.
      exists c. split; [exact H1|]. split; [exists r; auto|]. intros i p Hi Hp. unfold component. rewrite H4 by (apply rep_length; exact Hp).
      cbn [tapply]. f_equal. rewrite <- Ha by exact Hp. unfold element. rewrite Hsa. reflexivity.
    - destruct (einsum_elements a b 3 3 s 1 t Hsa Hsb Hs Ht) as (c & r & H1 & H2 & H3 & H4).
      exists c. split; [exact H1|]. split; [exists r; auto|]. intros i p Hi Hp. unfold component. rewrite H4 by (try (apply rep_length; exact Hp); lia).
      cbn [tapply]. apply csum_ext. intros l Hl. rewrite Ha by assumption. reflexivity.
  Qed.
  (** The inverse. *)
  Lemma bzip_ones s : bzip s (repeat 1%nat (length s)) = Some s.
  Proof. induction s as [|n s IH]; [reflexivity|]. cbn. unfold bdim. rewrite IH. destruct (Nat.eqb_spec n 1); reflexivity. Qed.
  Lemma clip_app s t p q : length p = length s -> clip (s ++ t) (p ++ q) = clip s p ++ clip t q.
  Proof. revert p. induction s as [|n s IH]; intros [|i p] H; cbn in *; try congruence; try reflexivity. rewrite IH; [reflexivity|congruence]. Qed.
  Lemma clip_idem s p : clip s (clip s p) = clip s p.
  Proof. apply clip_clip. induction s; constructor; auto. Qed.
  Lemma first_app {A} (l m : list A) n : length l = n -> firstn n (l ++ m) = l.
  Proof. intros <-. rewrite firstn_app, firstn_all, Nat.sub_diag. cbn. apply app_nil_r. Qed.
  Lemma skip_app {A} (l m : list A) n : length l = n -> skipn n (l ++ m) = m.
  Proof. intros <-. rewrite skipn_app, skipn_all, Nat.sub_diag. reflexivity. Qed.
  Lemma nth_after {A} (l m : list A) n k (x : A) : length l = n -> nth (n + k) (l ++ m) x = nth k m x.
  Proof. intros <-. rewrite app_nth2 by lia. f_equal. lia. Qed.
  Lemma last_get a s q i j : ashape a = 3%nat :: 3%nat :: s -> length q = length s -> aget (matrices_last a) (q ++ [i; j]) = aget a (i :: j :: q).
  Proof.
    intros Ha Hq. unfold matrices_last. cbn [aget]. rewrite app_length. cbn [length]. replace (length q + 2 - 2)%nat with (length q) by lia.
    rewrite skip_app, first_app by reflexivity. reflexivity.
  Qed.
  Lemma inv_get a s q i j : ashape a = 3%nat :: 3%nat :: s -> length q = length s ->
    aget (linalg_inv (matrices_last a)) (q ++ [i; j]) = inv3 (fun i j => aget a (i :: j :: q)) i j.
  Proof.
    intros Ha Hq. unfold linalg_inv. cbn [aget]. rewrite app_length. cbn [length]. replace (length q + 2 - 2)%nat with (length q) by lia.
    rewrite first_app by reflexivity. rewrite (nth_after q [i; j] (length q) 1) by reflexivity. rewrite app_nth2 by lia. rewrite Nat.sub_diag. cbn [nth].
    unfold inv3, det3. rewrite !(last_get a s q) by assumption. reflexivity.
  Qed.
  Lemma inverse_rep a ta : represents gs a ta -> exists c, inverse (length gs) a = Ok c /\ represents gs c (tinv ta).
  Proof.
    intros Ha. unfold inverse, ldivide. destruct (tmf_number (length gs) 1) as [Hu1 Hu2]. set (u := to_matrix_field (length gs) (number 1)) in *.
    destruct ta as [f|m]; destruct Ha as (s & Hsa & Hs & Ha); apply spatial_length in Hs as Ls.
    - rewrite (tmf_same _ a _ _ _ Hsa Ls) by lia. rewrite (is_scalar_shape a _ _ _ Hsa). cbn [Nat.eqb andb].
      destruct (abin_elements Cdiv u a gs 1 1 (repeat 1%nat (length gs)) 1 1 s 1 1) as (c & r & H1 & H2 & H3 & H4); try assumption; try reflexivity; try tauto.
      { apply ones_spatial. }
      exists c. split; [exact H1|]. exists r. split; [exact H2|]. split; [exact H3|]. intros p Hp. rewrite H4, Ha by (try apply inside_length; exact Hp).
      unfold element. rewrite Hu2. reflexivity.
    - rewrite (tmf_same _ a _ _ _ Hsa Ls) by lia. rewrite (is_scalar_shape a _ _ _ Hsa). cbn [Nat.eqb andb].
      rewrite (is_scalar_shape u 1 1 (repeat 1%nat (length gs))) by exact Hu1. cbn [Nat.eqb andb].
      unfold abin. set (x := linalg_inv (matrices_last a)).
      assert (ashape x = s ++ [3; 3]%nat) as Hx by (unfold x, linalg_inv, matrices_last; cbn [ashape]; rewrite Hsa; reflexivity).
      rewrite bshape_same by (rewrite Hx, Hu1, app_length, repeat_length; cbn; lia).
      assert (bzip (ashape x) (ashape u) = Some (s ++ [3; 3]%nat)) as ->.
      { rewrite Hx, Hu1. replace (2 + length gs)%nat with (length (s ++ [3; 3]%nat)) by (rewrite app_length; cbn; lia). apply bzip_ones. }
      cbn [rmap]. set (y := Arr (s ++ [3; 3]%nat) (fun p => bget x p * bget u p)).
      assert (adim y - 2 = length s)%nat as Ly by (unfold adim, y; cbn [ashape]; rewrite app_length; cbn; lia).
      exists (matrices_first y). split; [reflexivity|]. exists s. split; [|split; [exact Hs|]].
      { unfold matrices_first. rewrite Ly. unfold y. cbn [ashape]. rewrite skip_app, first_app by reflexivity. reflexivity. }
      intros i j p Hi Hj Hp. apply inside_length in Hp as Lp.
      assert (ashape (matrices_first y) = 3%nat :: 3%nat :: s) as Hy.
      { unfold matrices_first. rewrite Ly. unfold y. cbn [ashape]. rewrite skip_app, first_app by reflexivity. reflexivity. }
      unfold element. rewrite Hy. cbn [clip Nat.eqb]. unfold matrices_first. cbn [aget skipn firstn].
      set (q := clip s p). assert (length q = length s) as Lq by (apply clip_length; congruence).
      unfold y. cbn [aget]. rewrite !bget_same; [|unfold adim; rewrite ?Hu1, ?Hx, !app_length, ?repeat_length; cbn; lia|unfold adim; rewrite ?Hu1, ?Hx, !app_length, ?repeat_length; cbn; lia].
      unfold element. rewrite Hu2, Hx. rewrite clip_app by exact Lq. cbn [clip Nat.eqb]. unfold q. rewrite clip_idem. fold q. unfold x.
      rewrite (inv_get a s q i j Hsa Lq). cbn [tinv]. unfold inv3, det3.
      rewrite <- !Ha by (try apply Nat.mod_upper_bound; try exact Hp; lia). unfold element. rewrite Hsa. cbn [clip Nat.eqb]. fold q. ring.
  Qed.
End Tensors.

(** ** Tensors by their elements *)
Definition tentry (t : tensor) (i j : nat) (p : list nat) : C := match t with TScalar f => eye i j * f p | TMatrix m => m i j p end.
Lemma rep_exists gs a : tensor_array 3 gs a -> exists t, represents gs a t.
Proof.
  intros (m & s & Hm & [-> | ->] & Hs).
  - exists (TMatrix (fun i j p => element a (i :: j :: p))). exists s. auto.
  - exists (TScalar (fun p => element a (0%nat :: 0%nat :: p))). exists s. auto.
Qed.
Lemma rep_array gs a t : represents gs a t -> tensor_array 3 gs a.
Proof. destruct t; intros (s & H1 & H2 & _); [exists 1%nat|exists 3%nat]; exists s; auto. Qed.
Lemma rep_entry gs a t i j p : represents gs a t -> inside gs p -> (i < 3)%nat -> (j < 3)%nat -> entry a i j p = tentry t i j p.
Proof.
  intros H Hp Hi Hj. destruct t; destruct H as (s & H1 & H2 & H3); unfold entry; rewrite H1; cbn [nth Nat.eqb tentry].
  - rewrite H3 by exact Hp. unfold eye. destruct (Nat.eqb_spec i j); ring.
  - apply H3; assumption.
Qed.
Lemma csum3 f : csum 3 f = f 0%nat + f 1%nat + f 2%nat.
Proof. unfold csum. cbn. ring. Qed.
Ltac three i := destruct i as [|[|[|i]]]; [| | |lia].
Lemma tmul_entry a b i k p : (i < 3)%nat -> (k < 3)%nat -> tentry (tmul a b) i k p = csum 3 (fun j => tentry a i j p * tentry b j k p).
Proof.
  intros Hi Hk. destruct a as [f|m]; destruct b as [g|n]; cbn [tmul tentry]; rewrite !csum3; unfold eye; three i; three k; cbn [Nat.eqb]; ring.
Qed.
Lemma tsub_entry a b i j p : tentry (tsub a b) i j p = tentry a i j p - tentry b i j p.
Proof. destruct a as [f|m]; destruct b as [g|n]; cbn [tsub tentry]; ring. Qed.
Lemma tadjoint_entry a i j p : tentry (tadjoint a) i j p = Cconj (tentry a j i p).
Proof.
  destruct a as [f|m]; cbn [tadjoint tentry]; [|reflexivity]. unfold eye. rewrite (Nat.eqb_sym j i).
  destruct (Nat.eqb i j); destruct (f p) as [x y]; unfold Cconj, Cmult, RtoC; cbn; f_equal; ring.
Qed.
Lemma tapply_entry a F i p : (i < 3)%nat -> tapply a F i p = csum 3 (fun j => tentry a i j p * F j p).
Proof. intros Hi. destruct a as [f|m]; cbn [tapply tentry]; [|reflexivity]. rewrite csum3. unfold eye. three i; cbn [Nat.eqb]; ring. Qed.
Lemma tinv_entry a i k p : (match a with TScalar f => f p <> 0 | TMatrix m => det3 (fun i j => m i j p) <> 0 end) -> (i < 3)%nat -> (k < 3)%nat ->
  csum 3 (fun j => tentry (tinv a) i j p * tentry a j k p) = eye i k /\ csum 3 (fun j => tentry a i j p * tentry (tinv a) j k p) = eye i k.
Proof.
  intros Ha Hi Hk. destruct a as [f|m]; cbn [tinv tentry]; rewrite !csum3; unfold eye.
  - three i; three k; cbn [Nat.eqb]; split; field; exact Ha.
  - unfold inv3. unfold det3 in *. three i; three k; cbn [Nat.eqb]; cbn -[Cmult Cplus Cminus Cdiv]; split; field; exact Ha.
Qed.

Lemma mul_entries gs a b : tensor_array 3 gs a -> tensor_array 3 gs b -> exists c, mul a b = Ok c /\ tensor_array 3 gs c /\
  forall i k p, (i < 3)%nat -> (k < 3)%nat -> inside gs p -> entry c i k p = csum 3 (fun j => entry a i j p * entry b j k p).
Proof.
  intros Ha Hb. apply rep_exists in Ha as (ta & Ha). apply rep_exists in Hb as (tb & Hb). destruct (mul_rep gs a b ta tb Ha Hb) as (c & H1 & H2).
  exists c. split; [exact H1|]. split; [apply (rep_array _ _ _ H2)|]. intros i k p Hi Hk Hp. rewrite (rep_entry gs c _ i k p H2 Hp Hi Hk), tmul_entry by assumption.
  apply csum_ext. intros j Hj. rewrite (rep_entry gs a ta), (rep_entry gs b tb) by assumption. reflexivity.
Qed.
Lemma subtract_entries gs a b : tensor_array 3 gs a -> tensor_array 3 gs b -> exists c, subtract 3 (length gs) a b = Ok c /\ tensor_array 3 gs c /\
  forall i j p, (i < 3)%nat -> (j < 3)%nat -> inside gs p -> entry c i j p = entry a i j p - entry b i j p.
Proof.
  intros Ha Hb. apply rep_exists in Ha as (ta & Ha). apply rep_exists in Hb as (tb & Hb). destruct (subtract_rep gs a b ta tb Ha Hb) as (c & H1 & H2).
  exists c. split; [exact H1|]. split; [apply (rep_array _ _ _ H2)|]. intros i k p Hi Hk Hp. rewrite (rep_entry gs c _ i k p H2 Hp Hi Hk), tsub_entry.
  rewrite (rep_entry gs a ta), (rep_entry gs b tb) by assumption. reflexivity.
Qed.
Lemma adjoint_entries gs a : tensor_array 3 gs a -> tensor_array 3 gs (adjoint a) /\
  forall i j p, (i < 3)%nat -> (j < 3)%nat -> inside gs p -> entry (adjoint a) i j p = Cconj (entry a j i p).
Proof.
  intros Ha. apply rep_exists in Ha as (ta & Ha). pose proof (adjoint_rep gs a ta Ha) as H2. split; [apply (rep_array _ _ _ H2)|].
  intros i k p Hi Hk Hp. rewrite (rep_entry gs _ _ i k p H2 Hp Hi Hk), tadjoint_entry. rewrite (rep_entry gs a ta) by assumption. reflexivity.
Qed.
Lemma mul_components gs a b : tensor_array 3 gs a -> vector_array 3 gs b -> exists c, mul a b = Ok c /\ vector_array 3 gs c /\
  forall i p, (i < 3)%nat -> inside gs p -> component c i p = csum 3 (fun j => entry a i j p * component b j p).
Proof.
  intros Ha Hb. apply rep_exists in Ha as (ta & Ha). destruct (mul_vector_rep gs a b ta Ha Hb) as (c & H1 & H2 & H3).
  exists c. split; [exact H1|]. split; [exact H2|]. intros i p Hi Hp. rewrite H3, tapply_entry by assumption.
  apply csum_ext. intros j Hj. rewrite (rep_entry gs a ta) by assumption. reflexivity.
Qed.
Lemma inverse_entries gs a : tensor_array 3 gs a -> regular gs a -> exists c, inverse (length gs) a = Ok c /\ tensor_array 3 gs c /\
  forall i k p, (i < 3)%nat -> (k < 3)%nat -> inside gs p ->
    csum 3 (fun j => entry c i j p * entry a j k p) = eye i k /\ csum 3 (fun j => entry a i j p * entry c j k p) = eye i k.
Proof.
  intros Ha Hr. apply rep_exists in Ha as (ta & Ha). destruct (inverse_rep gs a ta Ha) as (c & H1 & H2).
  exists c. split; [exact H1|]. split; [apply (rep_array _ _ _ H2)|]. intros i k p Hi Hk Hp.
  assert (match ta with TScalar f => f p <> 0 | TMatrix m => det3 (fun i j => m i j p) <> 0 end) as Hd.
  { specialize (Hr p Hp). destruct ta as [f|m]; destruct Ha as (s & E1 & E2 & E3); rewrite E1 in Hr; cbn [nth Nat.eqb] in Hr.
    - rewrite <- E3 by exact Hp. exact Hr.
    - unfold det3 in *. rewrite <- !E3 by (try exact Hp; lia). exact Hr. }
  split; [rewrite <- (proj1 (tinv_entry ta i k p Hd Hi Hk))|rewrite <- (proj2 (tinv_entry ta i k p Hd Hi Hk))]; apply csum_ext; intros j Hj;
    rewrite (rep_entry gs a ta), (rep_entry gs c (tinv ta)) by assumption; reflexivity.
Qed.
