(** Proofs about several iterators over one Solution. *)
From Coq Require Import Reals Lra Lia List Arith ZArith Bool.
Require Import Verif.Base Verif.Cplx Verif.Field Verif.Solver_Model Verif.Derived_Model Verif.Run_Model Verif.Run_Spec Verif.Run_Proofs.
Require Import Verif.Iterators_Model Verif.Iterators_Spec.
Import ListNotations.

(** ** Equality up to the counter *)
Definition alike (s s' : solution) : Prop := set_iteration s 0 = set_iteration s' 0.
Lemma alike_parts s s' : alike s s' <-> wavenumber s = wavenumber s' /\ bound_chi s = bound_chi s' /\ operators s = operators s' /\
  field s = field s' /\ prev_norm s = prev_norm s' /\ residue_cache s = residue_cache s'.
Proof.
  unfold alike, set_iteration. split.
  - intros H. injection H. intros. auto 10.
  - intros (-> & -> & -> & -> & -> & ->). reflexivity.
Qed.
Lemma alike_refl s : alike s s. Proof. reflexivity. Qed.
Lemma alike_trans s s' s'' : alike s s' -> alike s' s'' -> alike s s''. Proof. unfold alike. congruence. Qed.
Lemma alike_counter s i : alike (set_iteration s i) s. Proof. reflexivity. Qed.

Lemma alike_next f f' s s' : alike s s' -> alike (fst (next f s)) (fst (next f' s')) /\ snd (next f s) = snd (next f' s').
Proof.
  intros H. apply alike_parts in H. destruct s as [a b c d e i r], s' as [a' b' c' d' e' i' r']. cbn in H. destruct H as (-> & -> & -> & -> & -> & ->).
  unfold next. destruct f, f'; cbn; (destruct e' as [x|]; [destruct (Req_EM_T x 0); [|destruct (Rlt_dec _ _)]|]; cbn; (split; [|reflexivity]); apply alike_parts; cbn; auto 10).
Qed.
Lemma alike_residue s s' : alike s s' -> alike (fst (read_residue s)) (fst (read_residue s')) /\ snd (read_residue s) = snd (read_residue s').
Proof.
  intros H. apply alike_parts in H. destruct s as [a b c d e i r], s' as [a' b' c' d' e' i' r']. cbn in H. destruct H as (-> & -> & -> & -> & -> & ->).
  unfold read_residue, calculate_residue. cbn. destruct r' as [r'|]; [split; reflexivity|].
  destruct e' as [x|]; repeat (destruct (Rlt_dec _ _) || destruct (Req_EM_T _ _)); cbn; (split; [|reflexivity]); reflexivity.
Qed.
Lemma alike_perform u a a' s s' : alike s s' -> (a = a' \/ is_next a = true /\ is_next a' = true) -> alike (perform u s a) (perform u s' a').
Proof.
  intros H Ha. destruct Ha as [<-|[Ha Ha']].
  - destruct a; cbn [perform].
    + apply alike_next. exact H.
    + apply alike_parts in H. apply alike_parts. destruct H as (H1 & H2 & H3 & H4 & H5 & H6). cbn. rewrite H1. auto 10.
    + apply alike_parts in H. apply alike_parts. destruct H as (H1 & H2 & H3 & H4 & H5 & H6). cbn. rewrite H3. auto 10.
    + apply alike_parts in H. apply alike_parts. destruct H as (H1 & H2 & H3 & H4 & H5 & H6). cbn. rewrite H1, H3. auto 10.
    + apply alike_parts in H. apply alike_parts. destruct H as (H1 & H2 & H3 & H4 & H5 & H6). cbn. unfold get_source. rewrite H2, H3. auto 10.
    + eapply alike_trans; [apply alike_counter|]. eapply alike_trans; [exact H|]. symmetry. apply alike_counter.
    + apply alike_residue. exact H.
  - destruct a, a'; try discriminate. cbn [perform]. apply alike_next. exact H.
Qed.
Lemma alike_same s s' : alike s s' -> same_solution s s'.
Proof.
  intros H. pose proof (alike_residue s s' H) as (_ & Hr). apply alike_parts in H. destruct H as (H1 & H2 & H3 & H4 & H5 & H6).
  unfold same_solution, get_E, get_source, get_epsilon, previous_update_norm. rewrite H1, H2, H3, H4, H5. auto 10.
Qed.

(** ** Interleavings *)
Lemma play_cons u x l t : play u (x :: l) t = play u l (handle u t x). Proof. reflexivity. Qed.
Lemma play_app u l l' t : play u (l ++ l') t = play u l' (play u l t). Proof. apply fold_left_app. Qed.
Lemma advance_ok i t : snd (advance i t) = None -> exists f, object (fst (advance i t)) = fst (next f (object t)) /\
  exists x, nth_error (iterators t) i = Some x /\ x <> Ended /\ f = (match x with Created => true | _ => false end) /\
  iterators (fst (advance i t)) = put (iterators t) i Suspended.
Proof.
  unfold advance. destruct (nth_error (iterators t) i) as [x|]; [|discriminate]. destruct x; [| |discriminate].
  - exists true. destruct (next true (object t)) as (s, [e|]); [discriminate|]. split; [reflexivity|]. exists Created. repeat split; discriminate.
  - exists false. destruct (next false (object t)) as (s, [e|]); [discriminate|]. split; [reflexivity|]. exists Suspended. repeat split; discriminate.
Qed.
Lemma interleaved u l : forall t s, alike (object t) s -> succeeds u l t -> alike (object (play u l t)) (history u (merged l) s).
Proof.
  induction l as [|x l IH]; intros t s H Hs; [exact H|]. destruct Hs as (Hx & Hs). rewrite play_cons. unfold merged. cbn [flat_map]. rewrite history_app.
  apply IH; [|exact Hs]. destruct x as [|i|i|a]; cbn [handle single] in *.
  - exact H.
  - destruct (advance_ok i t Hx) as (f & -> & _). apply (alike_perform u (ONext f) (ONext false) (object t) s H). right. split; reflexivity.
  - exact H.
  - apply (alike_perform u a a (object t) s H). left. reflexivity.
Qed.
Lemma interleaved_same u l l' t t' : object t = object t' -> succeeds u l t -> succeeds u l' t' -> merged l = merged l' ->
  same_solution (object (play u l t)) (object (play u l' t')).
Proof.
  intros H H1 H2 Hm. apply alike_same. eapply alike_trans; [apply (interleaved u l t (object t) (alike_refl _) H1)|].
  rewrite Hm. symmetry. apply (interleaved u l' t' (object t)); [rewrite H; reflexivity|exact H2].
Qed.
Lemma interleaved_history u l t : succeeds u l t -> same_solution (object (play u l t)) (history u (merged l) (object t)).
Proof. intros H. apply alike_same. apply interleaved; [reflexivity|exact H]. Qed.

(** ** The counter *)
Lemma nth_put l i x : nth_error l i <> None -> nth_error (put l i x) i = Some x.
Proof. revert i. induction l as [|y l IH]; intros [|i] H; cbn in *; try (exfalso; apply H; reflexivity); [reflexivity|]. apply IH. exact H. Qed.
Lemma nth_put_other l i j x : i <> j -> nth_error (put l i x) j = nth_error l j.
Proof. revert i j. induction l as [|y l IH]; intros [|i] [|j] H; cbn; try reflexivity; [congruence|]. apply IH. congruence. Qed.
Lemma perform_iteration u s a : (match a with ONext _ | OSetIteration _ => False | _ => True end) -> iteration (perform u s a) = iteration s.
Proof.
  destruct a; intros H; try contradiction; try reflexivity. cbn [perform]. unfold read_residue. destruct (residue_cache s); [reflexivity|].
  destruct (calculate_residue s); reflexivity.
Qed.
Lemma count_continued u l : forall t, all_continue u l t -> succeeds u l t ->
  iteration (object (play u l t)) = (iteration (object t) + Z.of_nat (length (filter advances l)))%Z.
Proof.
  induction l as [|x l IH]; intros t Hc Hs; [cbn; lia|]. destruct Hc as (Hx & Hc), Hs as (Hr & Hs). rewrite play_cons, (IH _ Hc Hs).
  destruct x as [|i|i|a]; cbn [handle advances filter continues raises] in *; try (cbn; lia).
  - destruct (advance_ok i t Hr) as (f & -> & x & Hn & _ & -> & _). rewrite Hn in Hx. injection Hx as ->.
    rewrite next_iteration. cbn [length]. lia.
  - cbn [object]. rewrite perform_iteration; [lia|]. destruct a; auto.
Qed.
Lemma count_started u i l t : nth_error (iterators t) i = Some Created -> let t' := handle u t (Next i) in
  succeeds u (Next i :: l) t -> all_continue u l t' -> iteration (object (play u (Next i :: l) t)) = (1 + Z.of_nat (length (filter advances l)))%Z.
Proof.
  intros Hi t' (Hr & Hs) Hc. rewrite play_cons. fold t' in Hs |- *. rewrite (count_continued u l t' Hc Hs). unfold t'. cbn [handle raises] in *.
  destruct (advance_ok i t Hr) as (f & -> & x & Hn & _ & -> & _). rewrite Hn in Hi. injection Hi as ->. rewrite next_iteration. lia.
Qed.

(** ** Ended iterators *)
Lemma put_ended l i j : nth_error l i = Some Ended -> nth_error (put l j Ended) i = Some Ended.
Proof. intros H. destruct (Nat.eq_dec j i) as [->|Hj]; [apply nth_put; congruence|rewrite nth_put_other; assumption]. Qed.
Lemma ended_stays u l : forall t i, nth_error (iterators t) i = Some Ended ->
  nth_error (iterators (play u l t)) i = Some Ended.
Proof.
  induction l as [|x l IH]; intros t i H; [exact H|]. rewrite play_cons. apply IH. destruct x as [|j|j|a]; cbn [handle].
  - cbn. rewrite nth_error_app1; [exact H|]. apply nth_error_Some. congruence.
  - unfold advance. destruct (nth_error (iterators t) j) as [x|] eqn:Hj; [|exact H].
    assert (j = i -> x = Ended) as Hji by (intros ->; congruence).
    destruct x; [| |exact H]; (destruct (Nat.eq_dec j i) as [->|Hne]; [specialize (Hji eq_refl); discriminate|]);
      destruct (next _ (object t)) as (s, [e|]); cbn; rewrite nth_put_other by assumption; exact H.
  - cbn. apply put_ended. exact H.
  - exact H.
Qed.
Lemma advance_error i t e : snd (advance i t) = Some e -> nth_error (iterators t) i <> None -> nth_error (iterators (fst (advance i t))) i = Some Ended.
Proof.
  unfold advance. destruct (nth_error (iterators t) i) as [x|] eqn:Hi; [|congruence]. intros H _.
  destruct x; [| |exact Hi]; (destruct (next _ (object t)) as (s, [e'|]); [|discriminate]); cbn; apply nth_put; congruence.
Qed.
Lemma advance_ended i t : nth_error (iterators t) i = Some Ended -> advance i t = (t, Some StopIteration).
Proof. intros H. unfold advance. rewrite H. reflexivity. Qed.
Lemma ended_after_error u l t i e : raises t (Next i) = Some e -> nth_error (iterators t) i <> None ->
  let t' := play u (Next i :: l) t in advance i t' = (t', Some StopIteration).
Proof. intros H Hi t'. apply advance_ended. unfold t'. rewrite play_cons. apply ended_stays. apply (advance_error i t e H Hi). Qed.

(** ** A loop within a loop *)
Lemma nested_never_ends {W} m fuel : (3 <= m)%Z -> forall fresh (w : W) s, (fresh = true \/ iteration s = 1%Z) ->
  forall w' s', loop fuel (nested m) fresh w s <> Some (Returned w' s').
Proof.
  intros Hm. induction fuel as [|fuel IH]; intros fresh w s Hf w' s'; [discriminate|]. cbn [loop].
  pose proof (next_iteration s fresh) as Hi. destruct (next fresh s) as (s1, [e|]); [discriminate|]. cbn [fst] in Hi. unfold nested at 1.
  assert (iteration s1 < m)%Z as H1 by (destruct Hf as [-> | Hf]; [|destruct fresh]; lia). apply Z.ltb_lt in H1. rewrite H1.
  pose proof (next_iteration s1 true) as Hi2. destruct (next true s1) as (s2, [e|]); [discriminate|]. cbn [fst] in Hi2.
  apply IH. right. exact Hi2.
Qed.
