(** Proofs about backend selection. *)
From Coq Require Import String ZifyBool ZifyNat.
From Verif Require Import Base Load_Model Load_Spec.
Local Open Scope string_scope.

Lemma prefix_exists p s : prefix p s = true -> exists r, s = p ++ r.
Proof.
  revert s. induction p as [|c p IH]; intros s H; [exists s; reflexivity|].
  destruct s as [|d s]; [discriminate|]. cbn in H.
  destruct (Ascii.ascii_dec c d) as [->|]; [|discriminate].
  destruct (IH _ H) as [r ->]. exists r. reflexivity.
Qed.

Lemma prefix_app p r : prefix p (p ++ r) = true.
Proof.
  induction p as [|c p IH]; [destruct r; reflexivity|]. cbn.
  destruct (Ascii.ascii_dec c c); [exact IH|congruence].
Qed.

Lemma try_cfg_usable e c b : try_cfg e c = Ok (Some b) <-> usable e c b.
Proof.
  unfold try_cfg. split.
  - destruct (c_type c) as [t|] eqn:Ht; [|discriminate].
    destruct (lower t =? "torch") eqn:E1.
    + apply String.eqb_eq in E1.
      destruct (torch_importable e) eqn:Ei; [|discriminate].
      match goal with |- context [torch_init e ?d] =>
        replace d with (requested_device c) by (unfold requested_device; destruct (c_device c); reflexivity) end.
      destruct (match requested_device c with Some d => startswith "cuda" d | None => false end
                && negb (cuda_available e && (0 <? cuda_devices e)))%nat eqn:Ew; [discriminate|].
      destruct (torch_fft e) eqn:Ef; [|discriminate]. cbn [negb].
      destruct (torch_init e (requested_device c)) eqn:Einit; [|discriminate].
      intros H. injection H as <-. eapply usable_torch; eauto.
      intros [rest Hr]. rewrite Hr in Ew. unfold startswith in Ew. rewrite prefix_app in Ew.
      destruct (cuda_available e); cbn in Ew; [|discriminate].
      destruct (cuda_devices e); [discriminate|]. split; [reflexivity|lia].
    + destruct (lower t =? "numpy") eqn:E2; [|discriminate].
      apply String.eqb_eq in E2.
      destruct (numpy_init e) as [[]|] eqn:En; try discriminate.
      intros H. injection H as <-. eapply usable_numpy; eauto.
  - intros H. destruct H as [t Ht Hl Hi Hf Hc Hinit | t Ht Hl Hn]; rewrite Ht, Hl; cbn [String.eqb Ascii.eqb Bool.eqb].
    + rewrite Hi.
      match goal with |- context [torch_init e ?d] =>
        replace d with (requested_device c) by (unfold requested_device; destruct (c_device c); reflexivity) end.
      assert (Hw : match requested_device c with Some d => startswith "cuda" d | None => false end
                && negb (cuda_available e && (0 <? cuda_devices e)%nat) = false).
      { destruct (requested_device c) as [d|] eqn:Ed; [|reflexivity].
        destruct (startswith "cuda" d) eqn:Es; [|reflexivity].
        apply prefix_exists in Es. destruct Es as [r ->].
        destruct Hc as [-> Hd]; [exists r; reflexivity|]. apply Nat.ltb_lt in Hd. rewrite Hd. reflexivity. }
      rewrite Hw, Hf, Hinit. reflexivity.
    + rewrite Hn. reflexivity.
Qed.

Lemma try_cfg_not_err e c x : numpy_init e = None -> try_cfg e c <> Err x.
Proof.
  intros Hn. unfold try_cfg. rewrite Hn.
  repeat match goal with |- context [if ?b then _ else _] => destruct b end; discriminate.
Qed.

Lemma try_all_first e l b : try_all e (map EDict l) = Ok b -> first_usable e l b.
Proof.
  induction l as [|c l IH]; cbn; [discriminate|].
  destruct (try_cfg e c) as [[b'|]|x] eqn:E; intros H; [|destruct (IH H) as (pre & c' & post & -> & Hpre & Hu)|discriminate].
  - injection H as ->. exists [], c, l. repeat split; [intros ? ? []|]. apply try_cfg_usable; assumption.
  - exists (c :: pre), c', post. repeat split; [|exact Hu].
    intros c'' b'' [<-|Hin]; [|apply Hpre; exact Hin].
    intros Hc. apply try_cfg_usable in Hc. congruence.
Qed.

Lemma try_all_ok e l : numpy_init e = None -> exists b, try_all e (map EDict (l ++ default_cfgs)%list) = Ok b.
Proof.
  intros Hn. induction l as [|c l IH].
  - cbn [app map default_cfgs try_all].
    destruct (try_cfg e {| c_type := Some "torch"; c_device := Some "cuda" |}) as [[b|]|x] eqn:E1;
      [eauto| |exfalso; eapply try_cfg_not_err; eauto].
    destruct (try_cfg e {| c_type := Some "torch"; c_device := Some "cpu" |}) as [[b|]|x] eqn:E2;
      [eauto| |exfalso; eapply try_cfg_not_err; eauto].
    replace (try_cfg e {| c_type := Some "numpy"; c_device := None |}) with (Ok (Some BNumpy)); [eauto|].
    symmetry. apply try_cfg_usable. eapply usable_numpy; [reflexivity|reflexivity|exact Hn].
  - cbn [app map try_all]. destruct (try_cfg e c) as [[b|]|x] eqn:E; [eauto|exact IH|].
    exfalso. eapply try_cfg_not_err; eauto.
Qed.

Lemma fallbacks_map : fallbacks = map EDict default_cfgs.
Proof. reflexivity. Qed.

(** Extra copies of the fall-backs behind the first make no difference. *)
Lemma try_all_app_found e l l' b : try_all e (map EDict l) = Ok b -> try_all e (map EDict (l ++ l')%list) = Ok b.
Proof.
  induction l as [|c l IH]; cbn; [discriminate|].
  destruct (try_cfg e c) as [[b'|]|x]; auto.
Qed.

Lemma try_all_copies e l n : numpy_init e = None ->
  exists b, try_all e (map EDict (l ++ concat (repeat default_cfgs n) ++ default_cfgs)%list) = Ok b
            /\ first_usable e (l ++ default_cfgs)%list b.
Proof.
  intros Hn. destruct (try_all_ok e l Hn) as [b Hb]. exists b. split.
  - destruct n as [|n]; [exact Hb|].
    cbn [repeat concat]. rewrite <- app_assoc, app_assoc. apply try_all_app_found. exact Hb.
  - apply try_all_first. exact Hb.
Qed.

(** Invariant: every list object holds what it was created with followed by copies of the fall-backs. *)
Definition ginv (s : state) (orig : list (list cfg)) (conf : option (list cfg)) : Prop :=
  List.length orig = List.length (heap s) /\
  (forall i, i < List.length (heap s) ->
     exists n, nth i (heap s) [] = map EDict (nth i orig [] ++ concat (repeat default_cfgs n))%list) /\
  match global s with
  | None => conf = None
  | Some loc => loc < List.length (heap s) /\ conf = Some (nth loc orig [])
  end.

Lemma upd_length {A} (l : list A) n x : List.length (upd l n x) = List.length l.
Proof. revert n. induction l as [|y l IH]; intros [|n]; cbn; auto. Qed.

Lemma nth_upd {A} (l : list A) n i x d :
  nth i (upd l n x) d = if (i =? n)%nat && (n <? List.length l)%nat then x else nth i l d.
Proof.
  revert n i. induction l as [|y l IH]; intros n i; cbn.
  - rewrite Bool.andb_comm. destruct n, i; reflexivity.
  - destruct n as [|n], i as [|i]; cbn; try reflexivity. rewrite IH. reflexivity.
Qed.

Lemma repeat_app_end {A} (x : A) n : (repeat x n ++ [x])%list = repeat x (S n).
Proof. induction n as [|n IH]; cbn; [reflexivity|]. f_equal. exact IH. Qed.

Lemma ginv_new s orig conf l :
  ginv s orig conf -> ginv (fst (new_list s (map EDict l))) (orig ++ [l])%list conf.
Proof.
  intros (Hl & Hh & Hg). unfold new_list, ginv; cbn. rewrite !app_length; cbn. split; [lia|]. split.
  - intros i Hi. destruct (Nat.eq_dec i (List.length (heap s))) as [->|Hne].
    + exists 0. rewrite app_nth2, Nat.sub_diag by lia. rewrite app_nth2 by lia. rewrite Hl, Nat.sub_diag. cbn.
      rewrite app_nil_r. reflexivity.
    + rewrite !app_nth1 by lia. apply Hh. lia.
  - destruct (global s) as [loc|]; [|exact Hg]. destruct Hg as [Hg1 Hg2]. split; [lia|].
    rewrite app_nth1 by lia. exact Hg2.
Qed.

Lemma ginv_extend s orig conf loc :
  ginv s orig conf -> loc < List.length (heap s) ->
  ginv {| heap := upd (heap s) loc (nth loc (heap s) [] ++ fallbacks)%list; global := global s |} orig conf.
Proof.
  intros (Hl & Hh & Hg) Hloc. unfold ginv; cbn. rewrite upd_length. split; [exact Hl|]. split; [|exact Hg].
  intros i Hi. rewrite nth_upd. destruct (Nat.eqb_spec i loc) as [->|]; cbn [andb]; [|apply Hh; exact Hi].
  replace (loc <? List.length (heap s))%nat with true by lia.
  destruct (Hh loc Hloc) as [n ->]. exists (S n).
  rewrite fallbacks_map, <- map_app, <- app_assoc. f_equal. f_equal.
  rewrite <- repeat_app_end, concat_app. cbn. reflexivity.
Qed.

Lemma file_cfgs_list l cs :
  file_cfgs (JsonList l) = Some cs -> l = map EDict cs.
Proof.
  cbn. revert cs. induction l as [|x l IH]; intros cs H; cbn in H.
  - injection H as <-. reflexivity.
  - destruct x as [c|]; [|discriminate].
    destruct (fold_right _ _ l) as [l'|] eqn:E; [|discriminate]. injection H as <-. cbn. f_equal. apply IH. reflexivity.
Qed.

Definition conf_step (acc : option (list cfg)) (o : op) :=
  match o with OConfig l kw => Some (l ++ [kw])%list | _ => acc end.

Lemma ginv_step s o orig conf :
  ginv s orig conf -> op_ok s o -> exists orig', ginv (step s o) orig' (conf_step conf o)
     /\ forall i, i < List.length (heap s) -> i < List.length (heap (step s o)) /\ nth i orig' [] = nth i orig [].
Proof.
  intros HI Hok. assert (Hlen : List.length orig = List.length (heap s)) by apply HI.
  destruct o as [l|l kw|e a]; cbn [step conf_step].
  - eexists. split; [apply ginv_new; exact HI|]. intros i Hi. cbn. rewrite app_length. split; [cbn; lia|].
    rewrite app_nth1 by lia. reflexivity.
  - pose proof (ginv_new s orig conf (l ++ [kw])%list HI) as (Hl & Hh & _).
    exists (orig ++ [l ++ [kw]])%list. unfold config, new_list in *. cbn in *. rewrite map_app in *. cbn in *. split.
    + split; [exact Hl|]. split; [exact Hh|]. split.
      * cbn. rewrite app_length. cbn. lia.
      * rewrite app_nth2 by lia. rewrite Hlen, Nat.sub_diag. reflexivity.
    + intros i Hi. rewrite app_length. split; [cbn; lia|]. rewrite app_nth1 by lia. reflexivity.
  - destruct a as [loc|]; cbn [op_ok load fst] in *; unfold load.
    + exists orig. split; [apply ginv_extend; assumption|]. intros i Hi. cbn. rewrite upd_length. auto.
    + destruct (global s) as [loc|] eqn:Hg.
      * exists orig. assert (loc < List.length (heap s)) as Hloc.
        { destruct HI as (_ & _ & H3). rewrite Hg in H3. apply H3. }
        pose proof (ginv_extend s orig conf loc HI Hloc) as H. cbn.
        split; [exact H|]. intros i Hi. rewrite upd_length. auto.
      * specialize (Hok eq_refl).
        assert (Haux : forall cs, exists orig',
          ginv (fst (let '(s0, loc) := new_list s (map EDict cs) in
               ({| heap := upd (heap s0) loc (nth loc (heap s0) [] ++ fallbacks)%list; global := global s0 |}, Ok BNumpy)))
               orig' conf
          /\ forall i, i < List.length (heap s) -> i < List.length (upd (heap s ++ [map EDict cs])%list (List.length (heap s)) (map EDict cs ++ fallbacks)%list)
                /\ nth i orig' [] = nth i orig []).
        { intros cs. exists (orig ++ [cs])%list. split.
          - pose proof (ginv_new s orig conf cs HI) as H. unfold new_list in *. cbn [fst] in *.
            cbn [heap global]. apply ginv_extend with (loc := List.length (heap s)) in H.
            + exact H.
            + cbn. rewrite app_length. cbn. lia.
          - intros i Hi. rewrite upd_length, app_length. split; [cbn; lia|]. rewrite app_nth1 by lia. reflexivity. }
        assert (Hnth : forall x : list entry, nth (List.length (heap s)) (heap s ++ [x])%list [] = x).
        { intros x. rewrite app_nth2, Nat.sub_diag by lia. reflexivity. }
        destruct (json_file e) as [| |l|c] eqn:Ej.
        -- destruct (Haux []) as (o' & Ho1 & Ho2). exists o'. cbn in *. split; [exact Ho1|].
           rewrite Hnth. exact Ho2.
        -- destruct (Haux []) as (o' & Ho1 & Ho2). exists o'. cbn in *. split; [exact Ho1|].
           rewrite Hnth. exact Ho2.
        -- destruct (file_cfgs (JsonList l)) as [cs|] eqn:Ef; [|congruence].
           apply file_cfgs_list in Ef. subst l.
           destruct (Haux cs) as (o' & Ho1 & Ho2). exists o'. cbn in *. split; [exact Ho1|].
           rewrite Hnth. exact Ho2.
        -- exfalso. apply Hok. reflexivity.
Qed.

Lemma ginv_run h s orig conf :
  ginv s orig conf -> hist_ok s h ->
  exists orig', ginv (fold_left step h s) orig' (fold_left conf_step h conf)
   /\ forall i, i < List.length (heap s) -> i < List.length (heap (fold_left step h s)) /\ nth i orig' [] = nth i orig [].
Proof.
  revert s orig conf. induction h as [|o h IH]; intros s orig conf HI Hok; cbn.
  - exists orig. auto.
  - destruct Hok as [Ho Hh]. destruct (ginv_step s o orig conf HI Ho) as (orig' & HI' & Hp).
    destruct (IH _ _ _ HI' Hh) as (orig'' & HI'' & Hp'). exists orig''. split; [exact HI''|].
    intros i Hi. destruct (Hp i Hi) as [H1 H2]. destruct (Hp' i H1) as [H3 H4]. split; congruence.
Qed.

Lemma ginv_init : ginv init [] None.
Proof. split; [reflexivity|]. split; [cbn; lia|reflexivity]. Qed.

(** Loading without an explicit list, after any history. *)
Lemma load_default_first e h :
  numpy_init e = None -> hist_ok init h ->
  forall cs, match last_config h with Some c => Some c | None => file_cfgs (json_file e) end = Some cs ->
  exists b, snd (load e (run h) None) = Ok b /\ first_usable e (cs ++ default_cfgs)%list b.
Proof.
  intros Hn Hh cs Hcs.
  destruct (ginv_run h init [] None ginv_init Hh) as (orig & (Hl & Hheap & Hg) & _).
  fold (run h) in *. change (fold_left conf_step h None) with (last_config h) in Hg.
  unfold load. destruct (global (run h)) as [loc|].
  - destruct Hg as [Hloc Hc]. rewrite Hc in Hcs. injection Hcs as <-. cbn [snd].
    destruct (Hheap loc Hloc) as [n ->]. rewrite fallbacks_map, <- map_app, <- app_assoc.
    apply try_all_copies. exact Hn.
  - rewrite Hg in Hcs.
    assert (Hnth : forall x : list entry, nth (List.length (heap (run h))) (heap (run h) ++ [x])%list [] = x).
    { intros x. rewrite app_nth2, Nat.sub_diag by lia. reflexivity. }
    destruct (json_file e) as [| |l|c] eqn:Ej; cbn in Hcs.
    + injection Hcs as <-. cbn [new_list snd heap]. rewrite Hnth. cbn [app].
      destruct (try_all_copies e [] 0 Hn) as [b Hb]. exists b. exact Hb.
    + injection Hcs as <-. cbn [new_list snd heap]. rewrite Hnth. cbn [app].
      destruct (try_all_copies e [] 0 Hn) as [b Hb]. exists b. exact Hb.
    + apply (file_cfgs_list l) in Hcs. subst l. cbn [new_list snd heap]. rewrite Hnth.
      rewrite fallbacks_map, <- map_app.
      destruct (try_all_copies e cs 0 Hn) as [b Hb]. exists b. exact Hb.
    + discriminate.
Qed.

(** Loading with an explicit list that was created as [l], after any further history. *)
Lemma load_explicit_first e h1 h2 l :
  numpy_init e = None -> hist_ok init (h1 ++ ONewList l :: h2) ->
  let loc := List.length (heap (run h1)) in
  exists b, snd (load e (run (h1 ++ ONewList l :: h2)) (Some loc)) = Ok b /\ first_usable e (l ++ default_cfgs)%list b.
Proof.
  intros Hn Hh loc.
  assert (Hsplit : forall h1 h2 s, hist_ok s (h1 ++ h2)%list -> hist_ok s h1 /\ hist_ok (fold_left step h1 s) h2).
  { clear. induction h1 as [|o h1 IH]; intros h2 s H; cbn in *; [auto|]. destruct H as [Ho H].
    apply IH in H. tauto. }
  destruct (Hsplit h1 (ONewList l :: h2) init Hh) as [Hh1 [_ Hh2]]. fold (run h1) in Hh2.
  destruct (ginv_run h1 init [] None ginv_init Hh1) as (orig & HI & _). fold (run h1) in HI.
  assert (Hlen : List.length orig = List.length (heap (run h1))) by apply HI.
  pose proof (ginv_new _ _ _ l HI) as HI1.
  destruct (ginv_run h2 _ _ _ HI1 Hh2) as (orig2 & (Hl2 & Hheap & _) & Hp).
  unfold run. rewrite fold_left_app. cbn [fold_left step]. fold (run h1).
  destruct (Hp loc) as [H1 H2]. { cbn. rewrite app_length. cbn. unfold loc. lia. }
  unfold load. cbn [snd]. destruct (Hheap loc H1) as [n ->].
  rewrite H2. unfold loc. rewrite app_nth2 by lia. rewrite Hlen, Nat.sub_diag. cbn [nth].
  rewrite fallbacks_map, <- map_app, <- app_assoc. apply try_all_copies. exact Hn.
Qed.

(** Uniqueness: [first_usable] determines the backend. *)
Lemma usable_unique e c b b' : usable e c b -> usable e c b' -> b = b'.
Proof. intros H H'. apply try_cfg_usable in H. apply try_cfg_usable in H'. congruence. Qed.

Lemma first_usable_unique e l b b' : first_usable e l b -> first_usable e l b' -> b = b'.
Proof.
  intros (p & c & q & E & Hp & Hu) (p' & c' & q' & E' & Hp' & Hu').
  rewrite E in E'. clear E l. revert p' E' Hp'. induction p as [|x p IH]; intros [|x' p'] E' Hp'; cbn in E'.
  - injection E' as -> _. eapply usable_unique; eauto.
  - injection E' as <- _. exfalso. eapply (Hp' c b); [left; reflexivity|exact Hu].
  - injection E' as -> _. exfalso. eapply (Hp c' b'); [left; reflexivity|exact Hu'].
  - injection E' as -> E'. eapply IH; eauto.
    + intros c0 b0 H0. apply Hp. right. exact H0.
    + intros c0 b0 H0. apply Hp'. right. exact H0.
Qed.

(** Every load with an explicit list modifies it. *)
Lemma load_mutates e s loc : loc < List.length (heap s) ->
  nth loc (heap (fst (load e s (Some loc)))) [] = (nth loc (heap s) [] ++ fallbacks)%list.
Proof.
  intros H. unfold load. cbn. rewrite nth_upd, Nat.eqb_refl. replace (loc <? List.length (heap s))%nat with true by lia. reflexivity.
Qed.

Lemma load_mutates_global e s loc : global s = Some loc -> loc < List.length (heap s) ->
  nth loc (heap (fst (load e s None))) [] = (nth loc (heap s) [] ++ fallbacks)%list.
Proof.
  intros Hg H. unfold load. rewrite Hg. cbn. rewrite nth_upd, Nat.eqb_refl. replace (loc <? List.length (heap s))%nat with true by lia. reflexivity.
Qed.

Lemma config_list_fails e s l kw : snd (load e (config s [EList l] kw) None) = Err AttributeError.
Proof.
  unfold load, config, new_list. cbn. rewrite app_nth2, Nat.sub_diag by lia. reflexivity.
Qed.

Lemma json_dict_fails e s c : global s = None -> json_file e = JsonDict c -> snd (load e s None) = Err TypeError.
Proof. intros Hg Hj. unfold load. rewrite Hg, Hj. reflexivity. Qed.
