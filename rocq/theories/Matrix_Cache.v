(** Proofs about the cache of columns. *)
From Coq Require Import Reals Lra List Arith Bool ZArith Lia.
Require Import Verif.Base Verif.Cplx Verif.CSum Verif.Matrix_Model Verif.Matrix_Spec.
Import ListNotations.
Local Open Scope R_scope.
Local Open Scope C_scope.

Lemma Ceqb_spec x y : reflect (x = y) (Ceqb x y).
Proof.
  unfold Ceqb. destruct (Req_EM_T (fst x) (fst y)) as [H1|H1]; [destruct (Req_EM_T (snd x) (snd y)) as [H2|H2]|]; constructor.
  - apply C_eq; assumption.
  - congruence.
  - congruence.
Qed.
Lemma non_zeros_in n v i : In i (non_zeros n v) <-> (i < n)%nat /\ v i <> 0.
Proof.
  unfold non_zeros. rewrite filter_In, in_seq, negb_true_iff. destruct (Ceqb_spec (v i) 0) as [H|H]; split; intros [H1 H2]; split; try lia; try congruence; tauto.
Qed.
Lemma non_zeros_nil n v : non_zeros n v = [] -> same n v (fun _ => 0).
Proof.
  intros H i Hi. destruct (Ceqb_spec (v i) 0) as [E|E]; [exact E|]. exfalso. assert (In i (non_zeros n v)) as K by (apply non_zeros_in; auto). rewrite H in K. destruct K.
Qed.
Lemma non_zeros_one n v b : non_zeros n v = [b] <-> along n b v.
Proof.
  split.
  - intros H. assert (In b (non_zeros n v)) as K by (rewrite H; left; reflexivity). apply non_zeros_in in K as [K1 K2]. split; [exact K1|]. split; [exact K2|].
    intros i Hi Hb. destruct (Ceqb_spec (v i) 0) as [E|E]; [exact E|]. exfalso. assert (In i (non_zeros n v)) as K by (apply non_zeros_in; auto). rewrite H in K. destruct K as [K|[]]. congruence.
  - intros (H1 & H2 & H3). assert (NoDup (non_zeros n v)) as N by (apply NoDup_filter, seq_NoDup).
    assert (forall x, In x (non_zeros n v) -> x = b) as U.
    { intros x Hx. apply non_zeros_in in Hx as [Hx1 Hx2]. destruct (Nat.eq_dec x b) as [E|E]; [exact E|]. exfalso. apply Hx2, H3; assumption. }
    assert (In b (non_zeros n v)) as K by (apply non_zeros_in; auto). destruct (non_zeros n v) as [|x [|y l]]; [destruct K|f_equal; apply U; left; reflexivity|].
    exfalso. inversion N as [|? ? N1 _]; subst. apply N1. left. rewrite (U x), (U y); [reflexivity|right; left; reflexivity|left; reflexivity].
Qed.
Lemma along_scaled n b v : along n b v -> same n v (fun i => v b * basis b i).
Proof. intros (_ & _ & H) i Hi. unfold basis. destruct (Nat.eqb_spec i b) as [->|E]; [ring|]. rewrite H by assumption. ring. Qed.
Lemma along_unique n b c v : along n b v -> along n c v -> b = c.
Proof. intros H1 H2. apply non_zeros_one in H1. apply non_zeros_one in H2. congruence. Qed.

Section Cache.
  Variables (f : vec -> vec) (n m : nat).
  Hypothesis Hf : homogeneous n m f.

  Definition good (s : cache_state) : Prop := forall b c, lookup b (ccolumns s) = Some c -> same m c (f (basis b)).
  Lemma f_zero v : same n v (fun _ => 0) -> same m (f v) (fun _ => 0).
  Proof.
    destruct Hf as [H1 H2]. intros H i Hi. rewrite (H1 v (fun i => 0 * v i)) by (try exact Hi; intros j Hj; rewrite (H j Hj); ring).
    rewrite (H2 0 v i Hi). ring.
  Qed.
  Lemma f_along b v : along n b v -> same m (f v) (fun i => v b * f (basis b) i).
  Proof. destruct Hf as [H1 H2]. intros H i Hi. rewrite (H1 _ _ (along_scaled n b v H) i Hi). apply (H2 (v b) (basis b) i Hi). Qed.

  Lemma column_spec s o v : good s -> (forall b, along n b v -> ccaching s = true -> lookup b (ccolumns s) <> None -> o = true) ->
    exists r o' s', cache_column f n s o v = Ok (r, o', s') /\ same m r (f v) /\ good s' /\ ccaching s' = ccaching s /\ (o = true -> o' = true).
  Proof.
    intros G Ho. unfold cache_column. destruct (non_zeros n v) as [|b l] eqn:E.
    - exists zero_vec, o, s. split; [reflexivity|]. split; [|auto]. intros i Hi. symmetry. apply f_zero; [apply non_zeros_nil; exact E|exact Hi].
    - destruct l as [|b' l]; [|eexists _, _, _; split; [reflexivity|]; split; [intros i _; reflexivity|auto]]. pose proof (proj1 (non_zeros_one n v b) E) as Ha.
      destruct (ccaching s) eqn:Ec; [|eexists _, _, _; split; [reflexivity|]; split; [intros i _; reflexivity|auto]].
      destruct (lookup b (ccolumns s)) as [c|] eqn:El.
      + rewrite (Ho b Ha eq_refl) by congruence. eexists _, _, _. split; [reflexivity|]. split; [|auto]. intros i Hi. rewrite (f_along b v Ha i Hi), (G b c El i Hi). ring.
      + eexists _, _, _. split; [reflexivity|]. split; [intros i _; reflexivity|]. split; [|auto]. intros k c. unfold call, store. cbn [ccolumns lookup].
        destruct (Nat.eqb_spec b k) as [<-|]; [|apply G]. intros [= <-] i Hi. rewrite (f_along b v Ha i Hi). destruct Ha as (_ & Hv & _). field. exact Hv.
  Qed.
  Lemma columns_spec rhs s : good s -> exists rs s', cache_columns f n s true rhs = Ok (rs, true, s') /\ Forall2 (fun v w => same m w (f v)) rhs rs /\ good s' /\ ccaching s' = ccaching s.
  Proof.
    revert s. induction rhs as [|v l IH]; intros s G; [exists [], s; split; [reflexivity|]; split; [constructor|auto]|].
    destruct (column_spec s true v G) as (r & o & s1 & H1 & H2 & H3 & H4 & H5); [reflexivity|]. rewrite (H5 eq_refl) in H1. destruct (IH s1 H3) as (rs & s2 & K1 & K2 & K3 & K4).
    exists (r :: rs), s2. cbn [cache_columns]. rewrite H1. cbn [bind]. rewrite K1. cbn [bind]. split; [reflexivity|]. split; [constructor; assumption|]. split; [exact K3|congruence].
  Qed.
  Lemma columns_good rhs s o rs o' s' : good s -> cache_columns f n s o rhs = Ok (rs, o', s') -> good s' /\ ccaching s' = ccaching s.
  Proof.
    revert s o rs. induction rhs as [|v l IH]; intros s o rs G H; cbn [cache_columns] in H; [injection H as <- <- <-; auto|].
    destruct (cache_column f n s o v) as [[[r o1] s1]|] eqn:E; [|discriminate]. cbn [bind] in H.
    destruct (cache_columns f n s1 o1 l) as [[[rs1 o2] s2]|] eqn:E2; [|discriminate]. cbn [bind] in H. injection H as <- <- <-.
    assert (good s1 /\ ccaching s1 = ccaching s) as [G1 C1].
    { clear IH E2. unfold cache_column in E. destruct (non_zeros n v) as [|b k] eqn:En; [injection E as <- <- <-; auto|]. destruct k as [|b' k]; [|injection E as <- <- <-; auto].
      destruct (ccaching s) eqn:Ec; [|injection E as <- <- <-; auto]. destruct (lookup b (ccolumns s)) as [c|] eqn:El; [destruct o; [|discriminate]; injection E as <- <- <-; auto|].
      injection E as <- <- <-. split; [|exact Ec]. apply non_zeros_one in En. intros k c. cbn [store call ccolumns lookup].
      destruct (Nat.eqb_spec b k) as [<-|]; [|apply G]. intros [= <-] i Hi. rewrite (f_along b v En i Hi). destruct En as (_ & Hv & _). field. exact Hv. }
    destruct (IH s1 o1 rs1 G1 E2) as [G2 C2]. split; [exact G2|congruence].
  Qed.
  Lemma cached_good o s rhs rs s' : good s -> cached f n o s rhs = Ok (rs, s') -> good s' /\ ccaching s' = ccaching s.
  Proof.
    intros G H. unfold cached in H. destruct (cache_columns f n s o rhs) as [[[rs1 o1] s1]|] eqn:E; [|discriminate]. cbn [bind] in H.
    destruct (columns_good rhs s o rs1 o1 s1 G E) as [G1 C1]. destruct o1; [injection H as <- <-; auto|]. destruct (ccolumns s1) as [|p l] eqn:Ec; [|discriminate].
    destruct rhs as [|v rhs]; [discriminate|]. injection H as <- <-. split; [|exact C1]. intros b c Hl. cbn [ccolumns] in Hl. apply G1. exact Hl.
  Qed.
  Lemma after_good b history : good (after f n b history).
  Proof.
    unfold after. assert (good (new_cache b)) as G by (intros k c H; discriminate H). revert G. generalize (new_cache b). induction history as [|op history IH]; intros s G; [exact G|].
    cbn [fold_left]. apply IH. destruct op as [o rhs|c]; cbn [operate]; [|exact G]. destruct (cached f n o s rhs) as [[rs s']|] eqn:E; [|exact G]. apply (cached_good o s rhs rs s' G E).
  Qed.
  Lemma cache_transparent b history rhs : exists rs s', cached f n true (after f n b history) rhs = Ok (rs, s') /\ Forall2 (fun v w => same m w (f v)) rhs rs.
  Proof.
    destruct (columns_spec rhs _ (after_good b history)) as (rs & s' & H1 & H2 & _). exists rs, s'. unfold cached. rewrite H1. cbn [bind]. auto.
  Qed.
End Cache.

(** ** No repetitions *)
Definition distinct (n : nat) (calls : list vec) : Prop := ForallOrdPairs (fun v w => forall b, ~ (along n b v /\ along n b w)) calls.
Definition once (n : nat) (s : cache_state) : Prop :=
  ccaching s = true /\ distinct n (ccalls s) /\ forall v b, In v (ccalls s) -> along n b v -> lookup b (ccolumns s) <> None.
Lemma call_once f n s v : once n s -> (forall b, ~ along n b v) -> once n (snd (call f s v)).
Proof.
  intros (H1 & H2 & H3) Hv. split; [exact H1|]. cbn [call snd ccalls ccolumns]. split.
  - constructor; [|exact H2]. apply Forall_forall. intros w _ b [Hb _]. exact (Hv b Hb).
  - intros w b [<-|Hw] Hb; [destruct (Hv b Hb)|apply (H3 w b Hw Hb)].
Qed.
Lemma column_once f n s o v r o' s' : once n s -> cache_column f n s o v = Ok (r, o', s') -> once n s'.
Proof.
  intros Hs E. pose proof Hs as (H1 & H2 & H3). unfold cache_column in E. rewrite H1 in E. destruct (non_zeros n v) as [|b k] eqn:En; [injection E as <- <- <-; auto|].
  destruct k as [|b' k].
  - destruct (lookup b (ccolumns s)) as [c|] eqn:El; [destruct o; [|discriminate]; injection E as <- <- <-; auto|]. injection E as <- <- <-. apply non_zeros_one in En.
    split; [exact H1|]. split.
    + cbn [store call ccalls]. constructor; [|exact H2]. apply Forall_forall. intros w Hw c [Hc1 Hc2]. rewrite (along_unique _ _ _ _ Hc1 En) in Hc2. apply (H3 w b Hw Hc2). exact El.
    + intros w c. cbn [store call ccalls ccolumns lookup]. destruct (Nat.eqb_spec b c); [discriminate|]. intros [<-|Hw] Hc; [rewrite (along_unique _ _ _ _ Hc En) in *; contradiction|apply (H3 w c Hw Hc)].
  - injection E as <- <- <-. apply (call_once f n s v Hs). intros c Hc. apply non_zeros_one in Hc. congruence.
Qed.
Lemma columns_once f n rhs s o rs o' s' : once n s -> cache_columns f n s o rhs = Ok (rs, o', s') -> once n s' /\ (o' = false -> Forall (fun v => non_zeros n v = []) rhs).
Proof.
  revert s o rs. induction rhs as [|v l IH]; intros s o rs G H; cbn [cache_columns] in H; [injection H as <- <- <-; split; [exact G|constructor]|].
  destruct (cache_column f n s o v) as [[[r o1] s1]|] eqn:E; [|discriminate]. cbn [bind] in H.
  destruct (cache_columns f n s1 o1 l) as [[[rs1 o2] s2]|] eqn:E2; [|discriminate]. cbn [bind] in H. injection H as <- <- <-.
  pose proof (column_once f n s o v r o1 s1 G E) as G1. destruct (IH s1 o1 rs1 G1 E2) as [G2 Z2]. split; [exact G2|]. intros ->. constructor; [|apply Z2; reflexivity].
  assert (forall rhs s o rs s', cache_columns f n s o rhs = Ok (rs, false, s') -> o = false) as K.
  { clear. induction rhs as [|v l IH]; intros s o rs s' H; cbn [cache_columns] in H; [injection H as <- <- <-; reflexivity|].
    destruct (cache_column f n s o v) as [[[r o1] s1]|] eqn:E; [|discriminate]. cbn [bind] in H.
    destruct (cache_columns f n s1 o1 l) as [[[rs1 o2] s2]|] eqn:E2; [|discriminate]. cbn [bind] in H. injection H as <- -> <-. apply IH in E2 as ->.
    unfold cache_column in E. destruct (non_zeros n v) as [|b [|b' k]]; [injection E as <- <- <-; reflexivity| |discriminate].
    destruct (ccaching s); [|discriminate]. destruct (lookup b (ccolumns s)); [|discriminate]. destruct o; discriminate. }
  apply K in E2 as ->. unfold cache_column in E. destruct (non_zeros n v) as [|b [|b' k]]; [reflexivity| |discriminate].
  destruct (ccaching s); [|discriminate]. destruct (lookup b (ccolumns s)); [destruct o; discriminate|discriminate].
Qed.
Lemma cached_once f n o s rhs rs s' : once n s -> cached f n o s rhs = Ok (rs, s') -> once n s'.
Proof.
  intros G H. unfold cached in H. destruct (cache_columns f n s o rhs) as [[[rs1 o1] s1]|] eqn:E; [|discriminate]. cbn [bind] in H.
  destruct (columns_once f n rhs s o rs1 o1 s1 G E) as [G1 Z]. destruct o1; [injection H as <- <-; exact G1|]. destruct (ccolumns s1) as [|p l] eqn:Ec; [|discriminate].
  destruct rhs as [|v rhs]; [discriminate|]. injection H as _ <-. specialize (Z eq_refl). inversion Z as [|? ? Zv _]; subst.
  pose proof (call_once f n s1 v G1) as K. unfold call in K. cbn [snd] in K. apply K. intros b Hb. apply non_zeros_one in Hb. congruence.
Qed.
Lemma evaluated_once f n history : (forall b, ~ In (SetCaching b) history) -> distinct n (ccalls (after f n true history)).
Proof.
  intros H. assert (once n (after f n true history)) as (_ & K & _); [|exact K]. unfold after.
  assert (once n (new_cache true)) as G by (split; [reflexivity|]; split; [constructor|intros v b []]). revert G. generalize (new_cache true).
  induction history as [|op history IH]; intros s G; [exact G|]. cbn [fold_left]. apply IH; [intros b Hb; apply (H b); right; exact Hb|].
  destruct op as [o rhs|c]; cbn [operate]; [|destruct (H c); left; reflexivity]. destruct (cached f n o s rhs) as [[rs s']|] eqn:E; [|exact G]. apply (cached_once f n o s rhs rs s' G E).
Qed.

(** ** Without an array for the result *)
Lemma non_zeros_basis n b : (b < n)%nat -> non_zeros n (basis b) = [b].
Proof.
  intros H. apply non_zeros_one. split; [exact H|]. unfold basis. rewrite Nat.eqb_refl. split; [intros E; apply RtoC_inj in E; lra|].
  intros i _ Hi. destruct (Nat.eqb_spec i b); [contradiction|reflexivity].
Qed.
Lemma non_zeros_zero n : non_zeros n zero_vec = [].
Proof.
  destruct (non_zeros n zero_vec) as [|b l] eqn:E; [reflexivity|]. exfalso. assert (In b (non_zeros n zero_vec)) as K by (rewrite E; left; reflexivity).
  apply non_zeros_in in K as [_ K]. apply K. reflexivity.
Qed.
Lemma no_out_fails f n b : (b < n)%nat ->
  let s := after f n true [Multiply false [basis b]] in cached f n false s [basis b] = Err TypeError /\ cached f n false s [zero_vec] = Err TypeError.
Proof.
  intros Hb s. assert (ccaching s = true /\ ccolumns s = [(b, fun i => f (basis b) i / basis b b)]) as [Hc Hs].
  { unfold s, after. cbn [fold_left operate]. unfold cached. cbn [cache_columns]. unfold cache_column. rewrite non_zeros_basis by exact Hb. split; reflexivity. }
  split; unfold cached; cbn [cache_columns]; unfold cache_column.
  - rewrite non_zeros_basis by exact Hb. rewrite Hc, Hs. cbn [lookup]. rewrite Nat.eqb_refl. reflexivity.
  - rewrite non_zeros_zero. cbn [bind]. rewrite Hs. reflexivity.
Qed.

(** ** DepositionMatrix *)
Lemma output_vector f axes v d : (axes <= 1)%nat -> apply_output (S (S d)) f axes v = Some (f v).
Proof. intros H. unfold apply_output, output_operator. destruct (Nat.ltb_spec 1 axes); [lia|]. reflexivity. Qed.
Lemma output_array f axes v d : (1 < axes)%nat -> apply_output d f axes v = None.
Proof.
  intros H. unfold apply_output, output_operator. destruct (Nat.ltb_spec 1 axes); [|lia]. cbv zeta.
  assert (forall d, run_closure d (CLinear CLambda) (CLinear CLambda) v = None /\ run_closure d (CLinear CLambda) CLambda v = None) as K; [|apply K].
  induction d0 as [|d0 [IH1 IH2]]; [split; reflexivity|]. split; cbn [run_closure]; assumption.
Qed.
