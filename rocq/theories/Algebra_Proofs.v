(** Expressions of matrices follow matrix algebra. *)
From Coq Require Import Reals Lra List Arith Bool ZArith Lia.
Require Import Verif.Base Verif.Cplx Verif.CSum Verif.Matrix_Model Verif.Matrix_Spec Verif.Matrix_Proofs Verif.Algebra_Model Verif.Algebra_Spec.
Import ListNotations.
Local Open Scope R_scope.
Local Open Scope C_scope.

(** The operator has a shape and multiplies as an array. *)
Definition acts (O : operator) (m n : nat) (a : nat -> nat -> C) : Prop :=
  op_shape O = (m, n) /\ forall v, exists w, op_matvec O v = Ok w /\ same m w (fun i => csum n (fun j => a i j * v j)).

Lemma acts_scale O m n a c : acts O m n a -> acts (op_scale O c) m n (fun i j => c * a i j).
Proof.
  intros [Hs Ha]. assert (acts (Scaled O c) m n (fun i j => c * a i j)) as H.
  { split; [exact Hs|]. intros v. destruct (Ha v) as (w & E & Hw). exists (fun i => c * w i). cbn. rewrite E. split; [reflexivity|]. intros i Hi. rewrite (Hw i Hi), <- csum_scal. apply csum_ext. intros j _. ring. }
  destruct O as [| |A a0| |]; try exact H. cbn [op_scale]. split; [exact Hs|]. intros v. destruct (Ha v) as (w & E & Hw). cbn in E |- *.
  destruct (op_matvec A v) as [y|]; [|discriminate]. injection E as <-. eexists. split; [reflexivity|]. intros i Hi. specialize (Hw i Hi). cbv beta in Hw.
  transitivity (c * (a0 * y i)); [ring|]. rewrite Hw, <- csum_scal. apply csum_ext. intros j _. ring.
Qed.
Lemma acts_ext O m n a b : (forall i j, (i < m)%nat -> (j < n)%nat -> a i j = b i j) -> acts O m n a -> acts O m n b.
Proof.
  intros H [Hs Ha]. split; [exact Hs|]. intros v. destruct (Ha v) as (w & E & Hw). exists w. split; [exact E|]. intros i Hi. rewrite (Hw i Hi). apply csum_ext. intros j Hj. rewrite (H i j Hi Hj). reflexivity.
Qed.
Lemma acts_add A B m n a b : acts A m n a -> acts B m n b -> exists O, op_add A B = Ok O /\ acts O m n (fun i j => a i j + b i j).
Proof.
  intros [HsA HA] [HsB HB]. exists (Sum A B). unfold op_add, pair_eqb. rewrite HsA, HsB. cbn [fst snd]. rewrite !Nat.eqb_refl. split; [reflexivity|]. split; [exact HsA|].
  intros v. destruct (HA v) as (y & Ey & Hy), (HB v) as (z & Ez & Hz). cbn. rewrite Ey. cbn. rewrite Ez. cbn. eexists. split; [reflexivity|]. intros i Hi. rewrite (Hy i Hi), (Hz i Hi), <- csum_plus. apply csum_ext. intros j _. ring.
Qed.
Lemma acts_dot A B m k n a b : acts A m k a -> acts B k n b -> exists O, op_dot A B = Ok O /\ acts O m n (product k a b).
Proof.
  intros [HsA HA] [HsB HB]. exists (Product A B). unfold op_dot. rewrite HsA, HsB. cbn [fst snd]. rewrite !Nat.eqb_refl. split; [reflexivity|]. split; [cbn; rewrite HsA, HsB; reflexivity|].
  intros v. destruct (HB v) as (z & Ez & Hz), (HA z) as (y & Ey & Hy). cbn. rewrite Ez. cbn. exists y. split; [exact Ey|]. intros i Hi. rewrite (Hy i Hi).
  rewrite (csum_ext _ _ (fun l => csum n (fun j => a i l * (b l j * v j)))).
  2:{ intros l Hl. rewrite (Hz l Hl), <- csum_scal. reflexivity. }
  rewrite csum_swap. apply csum_ext. intros j _. unfold product. rewrite <- csum_scal_r. apply csum_ext. intros l _. ring.
Qed.
Lemma acts_pow A n a p : acts A n n a -> exists O, op_pow A p = Ok O /\ acts O n n (power n a p).
Proof.
  intros [Hs HA]. exists (Power A p). unfold op_pow. rewrite Hs. cbn [fst snd]. rewrite Nat.eqb_refl. split; [reflexivity|]. split; [exact Hs|]. cbn [op_matvec].
  assert (forall p v, exists w, repeated (op_matvec A) p v = Ok w /\ same n w (fun i => csum n (fun j => power n a p i j * v j))) as H; [|exact (H p)]. clear p.
  (* powers commute with their base *)
  assert (forall p i j, (i < n)%nat -> (j < n)%nat -> product n a (power n a p) i j = product n (power n a p) a i j) as Hc.
  { induction p as [|p IH]; intros i j Hi Hj.
    - cbn. unfold product. transitivity (a i j).
      + rewrite <- (csum_delta n j (fun l => a i l) Hj). apply csum_ext. intros l _. destruct (Nat.eqb_spec l j); ring.
      + rewrite <- (csum_delta n i (fun l => a l j) Hi). apply csum_ext. intros l _. rewrite (Nat.eqb_sym l i). destruct (Nat.eqb_spec i l); ring.
    - cbn [power]. unfold product at 1. rewrite (csum_ext _ _ (fun l => csum n (fun k => a i l * (power n a p l k * a k j)))).
      2:{ intros l Hl. rewrite (IH l j Hl Hj). unfold product. rewrite <- csum_scal. reflexivity. }
      rewrite csum_swap. unfold product. apply csum_ext. intros k _. rewrite <- csum_scal_r. apply csum_ext. intros l _. ring. }
  induction p as [|p IH]; intros v.
  - exists v. split; [reflexivity|]. intros i Hi. cbn. rewrite <- (csum_delta n i v Hi). apply csum_ext. intros j _. rewrite (Nat.eqb_sym j i). destruct (i =? j)%nat; ring.
  - destruct (HA v) as (y & Ey & Hy), (IH y) as (w & Ew & Hw). exists w. cbn [repeated]. rewrite Ey. cbn [bind]. split; [exact Ew|]. intros i Hi. rewrite (Hw i Hi).
    rewrite (csum_ext n (fun j => power n a (Datatypes.S p) i j * v j) (fun j => csum n (fun l => power n a p i l * (a l j * v j)))).
    2:{ intros j Hj. change (power n a (Datatypes.S p) i j) with (product n a (power n a p) i j). rewrite (Hc p i j Hi Hj). unfold product. rewrite <- csum_scal_r. apply csum_ext. intros l _. ring. }
    rewrite csum_swap. apply csum_ext. intros l Hl. rewrite (Hy l Hl), <- csum_scal. reflexivity.
Qed.

Lemma evaluate_acts t : sound t -> conformable t -> exists O, evaluate t = Ok O /\ acts O (rows t) (cols t) (meaning t).
Proof.
  induction t as [M a|s IHs t IHt|s IHs t IHt|t IH|c t IH|s IHs t IHt|t IH p]; intros Hm Hc; cbn in Hm, Hc |- *.
  - exists (Leaf M). split; [reflexivity|]. split; [reflexivity|exact Hm].
  - destruct Hm as [Ms Mt], Hc as (Cs & Ct & R & K). destruct (IHs Ms Cs) as (A & EA & HA), (IHt Mt Ct) as (B & EB & HB). rewrite EA, EB. cbn. rewrite <- R, <- K in HB. exact (acts_add _ _ _ _ _ _ HA HB).
  - destruct Hm as [Ms Mt], Hc as (Cs & Ct & R & K). destruct (IHs Ms Cs) as (A & EA & HA), (IHt Mt Ct) as (B & EB & HB). rewrite EA, EB. cbn. rewrite <- R, <- K in HB. unfold op_sub.
    destruct (acts_add _ _ _ _ _ _ HA (acts_scale _ _ _ _ (- (1)) HB)) as (O & E & H). exists O. split; [exact E|]. revert H. apply acts_ext. intros i j _ _. ring.
  - destruct (IH Hm Hc) as (A & EA & HA). rewrite EA. cbn. eexists. split; [reflexivity|]. generalize (acts_scale _ _ _ _ (- (1)) HA). apply acts_ext. intros i j _ _. ring.
  - destruct (IH Hm Hc) as (A & EA & HA). rewrite EA. cbn. eexists. split; [reflexivity|]. apply (acts_scale _ _ _ _ c HA).
  - destruct Hm as [Ms Mt], Hc as (Cs & Ct & K). destruct (IHs Ms Cs) as (A & EA & HA), (IHt Mt Ct) as (B & EB & HB). rewrite EA, EB. cbn. rewrite <- K in HB. exact (acts_dot _ _ _ _ _ _ _ HA HB).
  - destruct Hc as [Ct K]. destruct (IH Hm Ct) as (A & EA & HA). rewrite EA. cbn. rewrite <- K in HA |- *. exact (acts_pow _ _ _ p HA).
Qed.
Lemma evaluate_shape t O : evaluate t = Ok O -> op_shape O = (rows t, cols t).
Proof.
  assert (forall A c, op_shape (op_scale A c) = op_shape A) as Hsc by (intros [] c; reflexivity).
  revert O. induction t as [M a|s IHs t IHt|s IHs t IHt|t IH|c t IH|s IHs t IHt|t IH p]; intros O; cbn; [intros [= <-]; reflexivity| | | | | |].
  - destruct (evaluate s) as [A|]; [|discriminate]. destruct (evaluate t) as [B|]; [|discriminate]. cbn. unfold op_add. destruct (pair_eqb _ _); [|discriminate]. intros [= <-]. exact (IHs _ eq_refl).
  - destruct (evaluate s) as [A|]; [|discriminate]. destruct (evaluate t) as [B|]; [|discriminate]. cbn. unfold op_sub, op_add. destruct (pair_eqb _ _); [|discriminate]. intros [= <-]. exact (IHs _ eq_refl).
  - destruct (evaluate t) as [A|]; [|discriminate]. intros [= <-]. rewrite Hsc. exact (IH _ eq_refl).
  - destruct (evaluate t) as [A|]; [|discriminate]. intros [= <-]. rewrite Hsc. exact (IH _ eq_refl).
  - destruct (evaluate s) as [A|]; [|discriminate]. destruct (evaluate t) as [B|]; [|discriminate]. cbn. unfold op_dot. destruct (_ =? _)%nat; [|discriminate]. intros [= <-]. cbn. rewrite (IHs _ eq_refl), (IHt _ eq_refl). reflexivity.
  - destruct (evaluate t) as [A|]; [|discriminate]. cbn. unfold op_pow. destruct (_ =? _)%nat; [|discriminate]. intros [= <-]. exact (IH _ eq_refl).
Qed.
Lemma evaluate_refuses t : ~ conformable t -> evaluate t = Err ValueError.
Proof.
  assert (forall A c, op_shape (op_scale A c) = op_shape A) as Hsc by (intros [] c; reflexivity).
  assert (forall t, evaluate t = Err ValueError \/ (exists O, evaluate t = Ok O) /\ conformable t) as H.
  { clear t. induction t as [M a|s IHs t IHt|s IHs t IHt|t IH|c t IH|s IHs t IHt|t IH p]; cbn.
    - right. split; [eexists; reflexivity|trivial].
    - destruct IHs as [->|[(A & EA) CA]]; [left; reflexivity|]. rewrite EA. destruct IHt as [->|[(B & EB) CB]]; [left; reflexivity|]. rewrite EB. cbn. unfold op_add, pair_eqb. rewrite (evaluate_shape _ _ EA), (evaluate_shape _ _ EB). cbn [fst snd].
      destruct (Nat.eqb_spec (rows s) (rows t)), (Nat.eqb_spec (cols s) (cols t)); cbn; try (left; reflexivity). right. split; [eexists; reflexivity|auto].
    - destruct IHs as [->|[(A & EA) CA]]; [left; reflexivity|]. rewrite EA. destruct IHt as [->|[(B & EB) CB]]; [left; reflexivity|]. rewrite EB. cbn. unfold op_sub, op_add, pair_eqb. rewrite Hsc, (evaluate_shape _ _ EA), (evaluate_shape _ _ EB). cbn [fst snd].
      destruct (Nat.eqb_spec (rows s) (rows t)), (Nat.eqb_spec (cols s) (cols t)); cbn; try (left; reflexivity). right. split; [eexists; reflexivity|auto].
    - destruct IH as [->|[(A & EA) CA]]; [left; reflexivity|]. rewrite EA. right. split; [eexists; reflexivity|exact CA].
    - destruct IH as [->|[(A & EA) CA]]; [left; reflexivity|]. rewrite EA. right. split; [eexists; reflexivity|exact CA].
    - destruct IHs as [->|[(A & EA) CA]]; [left; reflexivity|]. rewrite EA. destruct IHt as [->|[(B & EB) CB]]; [left; reflexivity|]. rewrite EB. cbn. unfold op_dot. rewrite (evaluate_shape _ _ EA), (evaluate_shape _ _ EB). cbn [fst snd].
      destruct (Nat.eqb_spec (cols s) (rows t)); [|left; reflexivity]. right. split; [eexists; reflexivity|auto].
    - destruct IH as [->|[(A & EA) CA]]; [left; reflexivity|]. rewrite EA. cbn. unfold op_pow. rewrite (evaluate_shape _ _ EA). cbn [fst snd]. destruct (Nat.eqb_spec (rows t) (cols t)); [|left; reflexivity]. right. split; [eexists; reflexivity|auto]. }
  intros Hn. destruct (H t) as [E|[_ C]]; [exact E|contradiction].
Qed.

(** ** Adjoints *)
Definition adjoint_is (O : operator) (m n : nat) (a : nat -> nat -> C) : Prop :=
  exists h, op_adjoint O = Ok h /\ a_rows h = n /\ a_cols h = m /\ forall i j, (i < n)%nat -> (j < m)%nat -> a_at h i j = Cconj (a j i).
Lemma adjoint_scale O m n a c : adjoint_is O m n a -> adjoint_is (op_scale O c) m n (fun i j => c * a i j).
Proof.
  intros (h & E & R & K & H). assert (adjoint_is (Scaled O c) m n (fun i j => c * a i j)) as G.
  { exists (each (fun x => x * Cconj c) h). cbn. rewrite E. split; [reflexivity|]. split; [exact R|]. split; [exact K|]. intros i j Hi Hj. cbn. rewrite (H i j Hi Hj), Cconj_mult. ring. }
  destruct O as [| |A a0| |]; try exact G. cbn [op_scale]. cbn in E. destruct (op_adjoint A) as [h0|] eqn:EA; [|discriminate]. cbn in E. injection E as <-. exists (each (fun x => x * Cconj (c * a0)) h0). cbn. rewrite EA.
  split; [reflexivity|]. split; [exact R|]. split; [exact K|]. intros i j Hi Hj. specialize (H i j Hi Hj). cbn in H |- *. rewrite !Cconj_mult, <- H. ring.
Qed.
Lemma common_same n : common n n = Ok n.
Proof. unfold common. rewrite Nat.eqb_refl. reflexivity. Qed.
Lemma clip1_below n i : (i < n)%nat -> clip1 n i = i.
Proof. unfold clip1. destruct (Nat.eqb_spec n 1); lia. Qed.
Lemma adjoint_add A B m n a b : adjoint_is A m n a -> adjoint_is B m n b -> adjoint_is (Sum A B) m n (fun i j => a i j + b i j).
Proof.
  intros (h & E & R & K & H) (h' & E' & R' & K' & H'). unfold adjoint_is. cbn. rewrite E, E'. cbn. unfold elementwise. rewrite R, R', K, K', !common_same. cbn [bind]. eexists. split; [reflexivity|].
  split; [reflexivity|]. split; [reflexivity|]. intros i j Hi Hj. cbn. rewrite !clip1_below by assumption. rewrite H, H' by assumption. rewrite Cconj_plus. reflexivity.
Qed.
Lemma adjoint_linear t O : sound t -> conformable t -> linear t -> evaluate t = Ok O -> adjoint_is O (rows t) (cols t) (meaning t).
Proof.
  revert O. induction t as [M a|s IHs t IHt|s IHs t IHt|t IH|c t IH|s IHs t IHt|t IH p]; intros O Hm Hc Hl E; cbn in Hm, Hc, Hl, E |- *.
  - injection E as <-. destruct (array_of M a Hm) as (b & Eb & Hb). unfold adjoint_is. cbn. unfold adjoint_array. rewrite Eb. cbn. eexists. split; [reflexivity|]. split; [reflexivity|]. split; [reflexivity|]. intros i j Hi Hj. cbn. rewrite (Hb j i Hj Hi). reflexivity.
  - destruct Hm as [Ms Mt], Hc as (Cs & Ct & R & K), Hl as [Ls Lt]. destruct (evaluate s) as [A|]; [|discriminate]. destruct (evaluate t) as [B|]; [|discriminate]. cbn in E. unfold op_add in E. destruct (pair_eqb _ _); [|discriminate]. injection E as <-.
    specialize (IHt _ Mt Ct Lt eq_refl). rewrite <- R, <- K in IHt. apply adjoint_add; [exact (IHs _ Ms Cs Ls eq_refl)|exact IHt].
  - destruct Hm as [Ms Mt], Hc as (Cs & Ct & R & K), Hl as [Ls Lt]. destruct (evaluate s) as [A|]; [|discriminate]. destruct (evaluate t) as [B|]; [|discriminate]. cbn in E. unfold op_sub, op_add in E. destruct (pair_eqb _ _); [|discriminate]. injection E as <-.
    specialize (IHt _ Mt Ct Lt eq_refl). rewrite <- R, <- K in IHt. destruct (adjoint_add _ _ _ _ _ _ (IHs _ Ms Cs Ls eq_refl) (adjoint_scale _ _ _ _ (- (1)) IHt)) as (h & Eh & Rh & Kh & H).
    exists h. split; [exact Eh|]. split; [exact Rh|]. split; [exact Kh|]. intros i j Hi Hj. rewrite (H i j Hi Hj). f_equal. ring.
  - destruct (evaluate t) as [A|]; [|discriminate]. injection E as <-. destruct (adjoint_scale _ _ _ _ (- (1)) (IH _ Hm Hc Hl eq_refl)) as (h & Eh & Rh & Kh & H).
    exists h. split; [exact Eh|]. split; [exact Rh|]. split; [exact Kh|]. intros i j Hi Hj. rewrite (H i j Hi Hj). f_equal. ring.
  - destruct (evaluate t) as [A|]; [|discriminate]. injection E as <-. exact (adjoint_scale _ _ _ _ c (IH _ Hm Hc Hl eq_refl)).
  - contradiction.
  - contradiction.
Qed.
Lemma adjoint_inner_product O m n a h : acts O m n a -> op_adjoint O = Ok h -> (forall i j, (i < n)%nat -> (j < m)%nat -> a_at h i j = Cconj (a j i)) ->
  forall x y w, op_matvec O y = Ok w -> inner m x w = inner n (fun i => csum m (fun j => a_at h i j * x j)) y.
Proof.
  intros [_ Ha] _ Hh x y w Ew. destruct (Ha y) as (w' & E' & Hw). rewrite E' in Ew. injection Ew as <-. unfold inner.
  rewrite (csum_ext _ _ (fun i => csum n (fun j => Cconj (x i) * (a i j * y j)))).
  2:{ intros i Hi. rewrite (Hw i Hi), <- csum_scal. reflexivity. }
  rewrite csum_swap. apply csum_ext. intros j Hj. rewrite csum_conj, <- csum_scal_r. apply csum_ext. intros i Hi.
  rewrite (Hh j i Hj Hi), Cconj_mult, Cconj_conj. ring.
Qed.
Lemma adjoint_product_elements A B n a b : adjoint_is A n n a -> adjoint_is B n n b -> exists h, op_adjoint (Product A B) = Ok h /\ a_rows h = n /\ a_cols h = n /\
  forall i j, (i < n)%nat -> (j < n)%nat -> a_at h i j = Cconj (a j i) * Cconj (b j i).
Proof.
  intros (h & E & R & K & H) (h' & E' & R' & K' & H'). cbn. rewrite E, E'. cbn. unfold elementwise. rewrite R, R', K, K', !common_same. cbn [bind]. eexists. split; [reflexivity|].
  split; [reflexivity|]. split; [reflexivity|]. intros i j Hi Hj. cbn. rewrite !clip1_below by assumption. rewrite H, H' by assumption. ring.
Qed.
Fixpoint made_of_matrices (O : operator) : Prop :=
  match O with
  | Leaf M => exists a, adjoint_array M = Ok a
  | Sum A B | Product A B => made_of_matrices A /\ made_of_matrices B
  | Scaled A _ => made_of_matrices A
  | Power A p => p <> 0%nat /\ made_of_matrices A
  end.
Lemma rmatvec_fails O : made_of_matrices O -> forall x, op_rmatvec O x = Err AttributeError.
Proof.
  induction O as [M|A IHA B IHB|A IH c|A IHA B IHB|A IH p]; intros H x; cbn in H |- *.
  - destruct H as (a & ->). reflexivity.
  - rewrite (IHA (proj1 H)). reflexivity.
  - rewrite (IH H). reflexivity.
  - rewrite (IHA (proj1 H)). reflexivity.
  - destruct H as [Hp H]. destruct p as [|p]; [contradiction|]. cbn. rewrite (IH H). reflexivity.
Qed.
