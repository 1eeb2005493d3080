(** Histories of a Solution whose arrays are read and written. *)
From Coq Require Import Reals List Arith Bool ZArith Lia Lra FunctionalExtensionality.
Require Import Verif.Base Verif.Cplx Verif.CSum Verif.Field Verif.Fourier_Model Verif.Vec_Model Verif.Solver_Model Verif.Derived_Model Verif.Run_Model.
Require Import Verif.Memory_Model Verif.Memory_Spec Verif.Memory_Proofs Verif.Memory_Steps Verif.Memory_Reads.
Import ListNotations.
Local Open Scope R_scope.
Local Open Scope C_scope.

Lemma me_safe_write : forall (P : loc -> Prop) h l f, safe P h -> safe P (write h l f).
Proof. intros P h l f S. destruct S. now constructor. Qed.
Lemma me_solution_of_store : forall m s, solution_of (store m s) = s.
Proof. intros m [k b [g ve ma al be ee eh he hh src] F p i r]. reflexivity. Qed.
Lemma me_update_sourced : forall o src F, update (sourced o src) F = update
  {| o_grid := o_grid o; o_vectorial := o_vectorial o; o_magnetic := o_magnetic o; o_alpha := o_alpha o;
      o_beta := o_beta o; o_chiEE := o_chiEE o; o_chiEH := o_chiEH o; o_chiHE := o_chiHE o; o_chiHH := o_chiHH o; o_source := src |} F.
Proof. reflexivity. Qed.

Section Sessions.
  Variables (lib : library) (aligned : loc -> bool) (junk : nat -> vfield) (u : si).
  Notation nextm := (next_m lib aligned junk).
  Notation readm := (read_m lib aligned junk u).
  Notation deedm := (deed_m lib aligned junk u).
  Notation after := (session_after lib aligned junk u).

  (** ** An iteration *)
  Lemma me_next : forall (P : loc -> Prop) fresh m, safe P (mem m) -> P Field -> P Source ->
    solution_of (fst (nextm fresh m)) = fst (next fresh (solution_of m)) /\ snd (nextm fresh m) = snd (next fresh (solution_of m))
    /\ safe P (mem (fst (nextm fresh m))) /\ (created (mem m) <= created (mem (fst (nextm fresh m))))%nat
    /\ (forall l, P l -> l <> Field -> l <> Source -> content (mem (fst (nextm fresh m))) l = content (mem m) l).
  Proof.
    intros P fresh [s h] S PF PS. simpl mem in *.
    unfold next_m, next. cbn [rest mem].
    set (s1 := set_residue (set_iteration (if fresh then set_iteration s 0 else s) (iteration (if fresh then set_iteration s 0 else s) + 1)) None).
    assert (O1 : operators s1 = operators s) by (unfold s1; destruct fresh; reflexivity).
    assert (P1 : prev_norm s1 = prev_norm s) by (unfold s1; destruct fresh; reflexivity).
    set (t1 := set_residue (set_iteration (if fresh then set_iteration (solution_of _) 0 else solution_of _) _) None).
    assert (T1 : t1 = with_arrays s1 (content h Field) (content h Source)) by (unfold t1, s1; destruct fresh; reflexivity).
    clearbody t1. subst t1.
    destruct (me_update lib aligned junk P h (operators s1) S PF PS) as (d & h' & E & L & V & N & Hd & _). rewrite E.
    destruct L as (S' & K & Cr).
    assert (X : forall l v, l = Field \/ l = Source -> let h2 := write h' l v in
       safe P h2 /\ (created h <= created h2)%nat /\ (forall x, P x -> x <> Field -> x <> Source -> content h2 x = content h x)).
    { intros l v Hl. split; [now apply me_safe_write|]. split; [exact Cr|]. intros x Hx N1 N2.
      rewrite me_write_other by (destruct Hl; subst; assumption). now apply K. }
    set (t1 := with_arrays s1 (content h Field) (content h Source)) in *.
    assert (NV : norm (operators s1) (content h' d) = norm (operators t1) (update (operators t1) (field t1))) by (rewrite V; reflexivity).
    rewrite NV. set (cur := norm (operators t1) _) in *.
    change (prev_norm t1) with (prev_norm s1).
    assert (Acc : solution_of {| rest := set_prev_norm s1 (Fin cur); mem := snd (change Field d plus h') |}
       = set_prev_norm (set_field t1 (fun c p => field t1 c p + update (operators t1) (field t1) c p)) (Fin cur)).
    { unfold solution_of, change, bindm, get, put. cbn [snd rest mem].
      rewrite me_write_same, me_write_other by discriminate. rewrite V, (K Field PF), (K Source PS). reflexivity. }
    assert (Rej : solution_of {| rest := set_operators s1 (update_operators (operators s1) (fst (o_alpha (operators s1)), (15 / 10 * snd (o_alpha (operators s1)))%R));
         mem := snd (change1 Source (fun S => times S (im (o_alpha (operators s1)) / im (fst (o_alpha (operators s1)), (15 / 10 * snd (o_alpha (operators s1)))%R))) h') |}
       = set_operators t1 (update_operators (operators t1) (fst (o_alpha (operators t1)), (15 / 10 * snd (o_alpha (operators t1)))%R))).
    { unfold solution_of, change1, bindm, get, put. cbn [snd rest mem].
      rewrite me_write_same, me_write_other by discriminate. rewrite (K Field PF), (K Source PS). reflexivity. }
    assert (Exc : solution_of {| rest := s1; mem := h' |} = t1).
    { unfold solution_of. cbn [rest mem]. rewrite (K Field PF), (K Source PS). reflexivity. }
    assert (XE : safe P h' /\ (created h <= created h')%nat /\ (forall x, P x -> x <> Field -> x <> Source -> content h' x = content h x)).
    { split; [exact S'|]. split; [exact Cr|]. intros x Hx _ _. now apply K. }
    destruct (prev_norm s1) as [x|].
    - destruct (Req_EM_T x 0) as [Z|Z].
      + cbn [fst snd mem]. split; [exact Exc|]. split; [reflexivity|]. exact XE.
      + destruct (Rlt_dec (cur / x) 1) as [Y|Y].
        * cbn [fst snd]. split; [exact Acc|]. split; [reflexivity|]. apply (X Field). now left.
        * cbn [fst snd]. split; [exact Rej|]. split; [reflexivity|]. apply (X Source). now right.
    - cbn [fst snd]. split; [exact Acc|]. split; [reflexivity|]. apply (X Field). now left.
  Qed.

  (** ** Reading a property *)
  Lemma me_own_d : forall s, own_array lib s RD = true -> shared lib (shape (operators s)) true = false.
  Proof. intros s. unfold own_array, shared, shape, trivial. rewrite Bool.andb_true_r, Bool.andb_true_r. intros H. now apply Bool.negb_true_iff in H. Qed.
  Lemma me_own_divs : forall s, own_array lib s RDivS = true ->
    shared lib (shape (operators s)) (vector_length (operators s) =? 1)%nat = false.
  Proof.
    intros s. unfold own_array, shared, shape, trivial, vector_length. destruct (o_vectorial (operators s)), lib, (forallb _ _); simpl; auto.
  Qed.
  Lemma me_returns_ok : forall (P : loc -> Prop) h (m : M loc) v a, returns P h (m h) v a -> returns_or_fails P h (ok_m m h) (Ok v) a.
  Proof. intros P h m v a (r & h' & E & X). unfold ok_m, bindm. rewrite E. unfold ret. cbn. exists r, h'. now split. Qed.
  Lemma me_fails_weaken : forall (P : loc -> Prop) h x v (a b : Prop), (b -> a) -> returns_or_fails P h x v a -> returns_or_fails P h x v b.
  Proof.
    intros P h [[r|e] h'] [f|e'] a b H; simpl; auto. now apply me_returns_weaken.
  Qed.
  Lemma me_read : forall (P : loc -> Prop) g m, safe P (mem m) -> P Field -> P Source ->
    rest (fst (readm g m)) = rest m
    /\ returns_or_fails P (mem m) (snd (readm g m), mem (fst (readm g m))) (value u g (solution_of m)) (own_array lib (solution_of m) g = true).
  Proof.
    intros P g [s h] S PF PS. unfold read_m. cbn [rest mem].
    match goal with |- context [let (x, h0) := ?m in _] => destruct m as [x h'] eqn:E end. cbn [fst snd rest mem]. split; [reflexivity|]. rewrite <- E.
    destruct g; unfold value; cbn [operators wavenumber field solution_of with_arrays].
    - eapply me_fails_weaken; [|apply me_returns_ok; apply me_e; assumption]. tauto.
    - eapply me_fails_weaken; [|apply me_returns_ok; apply me_source; assumption]. tauto.
    - eapply me_fails_weaken; [|apply me_returns_ok; apply me_j; assumption]. tauto.
    - exact (me_fails_weaken _ _ _ _ _ _ (fun _ => I) (me_returns_ok _ _ _ _ _ (me_b lib aligned junk u (operators s) (wavenumber s) P h S))).
    - exact (me_fails_weaken _ _ _ _ _ _ (fun _ => I) (me_returns_ok _ _ _ _ _ (me_h lib aligned junk u (operators s) (wavenumber s) P h S PF))).
    - exact (me_fails_weaken _ _ _ _ _ _ (me_own_d (solution_of {| rest := s; mem := h |})) (me_returns_ok _ _ _ _ _ (me_d lib aligned junk u (operators s) (wavenumber s) P h S PF PS))).
    - exact (me_fails_weaken _ _ _ _ _ _ (fun _ => I) (me_returns_ok _ _ _ _ _ (me_s lib aligned junk u (operators s) (wavenumber s) P h S PF))).
    - exact (me_fails_weaken _ _ _ _ _ _ (me_own_divs (solution_of {| rest := s; mem := h |})) (me_divs lib aligned junk u (operators s) (wavenumber s) P h S PF)).
    - eapply me_fails_weaken; [|apply me_returns_ok; apply me_energy; assumption]. tauto.
    - exact (me_fails_weaken _ _ _ _ _ _ (fun _ => I) (me_returns_ok _ _ _ _ _ (me_stress lib aligned junk u (operators s) (wavenumber s) P h S PF))).
    - exact (me_fails_weaken _ _ _ _ _ _ (fun _ => I) (me_force lib aligned junk u (operators s) (wavenumber s) P h S PF)).
    - exact (me_fails_weaken _ _ _ _ _ _ (fun _ => I) (me_torque lib aligned junk u (operators s) (wavenumber s) P h S PF)).
  Qed.
  Lemma me_curl_shared : forall o l h, shared lib (shape o) true = true -> fst (curl_m lib aligned junk o l h) = Buffer.
  Proof.
    intros o l h E. unfold curl_m, bindm. destruct (ft_m _ _ _ _ _ _ h) as [f h1]. unfold get, new, ift_m. unfold shared in E. rewrite E. reflexivity.
  Qed.
  Lemma me_read_shared : forall g m l, own_array lib (solution_of m) g = false -> snd (readm g m) = Ok l -> l = Buffer.
  Proof.
    intros g [s h] l E. unfold own_array in E. apply Bool.negb_false_iff in E.
    apply Bool.andb_true_iff in E. destruct E as [E E2]. cbn [operators o_grid with_arrays solution_of rest o_vectorial] in *.
    destruct g; try discriminate E2; unfold read_m; cbn [rest mem].
    - match goal with |- context [let (x, h0) := ?m in _] => destruct m as [x h'] eqn:Q end. cbn [fst snd rest mem]. intros ->.
      unfold ok_m, d_m, bindm in Q. destruct (h_m _ _ _ _ _ _ h) as [y h1].
      pose proof (me_curl_shared (operators s) y h1) as K. destruct (curl_m _ _ _ _ _ h1) as [d h2].
      unfold ret, change, change1, bindm, get, put in Q. injection Q as Q _. subst l. apply K.
      unfold shared, shape, trivial. apply Bool.andb_true_iff in E. destruct E as [-> ->]. reflexivity.
    - match goal with |- context [let (x, h0) := ?m in _] => destruct m as [x h'] eqn:Q end. cbn [fst snd rest mem]. intros ->.
      unfold divs_m, div_m, bindm in Q. destruct (s_m _ _ _ _ _ _ h) as [y h1]. destruct (ft_m _ _ _ _ _ _ h1) as [f h2].
      unfold get in Q. destruct (div_ft _ _ _) as [r|e]; [|discriminate Q]. unfold new, ift_m in Q.
      apply Bool.negb_true_iff in E2. unfold vector_length in Q. rewrite E2 in Q. unfold shape, trivial in Q.
      apply Bool.andb_true_iff in E. destruct E as [E3 E4]. rewrite E3, E4 in Q. cbn [Nat.eqb andb] in Q.
      unfold ifft_call, ret in Q. cbv zeta in Q. injection Q as Q _. now symmetry.
  Qed.

  (** ** Histories *)
  Definition held (x : session) (l : loc) : Prop := l = Field \/ l = Source \/ (In l (got x) /\ l <> Buffer).
  Record sound (x : session) : Prop := {
    o_safe : safe (held x) (mem (now x));
    o_apart : forall l, In l (got x) -> l <> Field /\ l <> Source;
    o_once : forall j k l, nth_error (got x) j = Some l -> nth_error (got x) k = Some l -> l <> Buffer -> j = k
  }.
  Lemma me_sound_start : forall s, sound (start s).
  Proof.
    intros s. constructor.
    - unfold held. simpl. constructor; simpl; try discriminate; try tauto; try (intros [H|[H|[H _]]]; (discriminate || contradiction)).
      intros l [H|[H|[H _]]]; try contradiction; now subst.
    - intros l [].
    - intros j k l H. destruct j; discriminate H.
  Qed.
  Lemma me_deed : forall x a, sound x -> sound (deedm x a)
    /\ solution_of (now (deedm x a)) = (match a with Do b => perform u (solution_of (now x)) b | _ => solution_of (now x) end)
    /\ (forall k l, nth_error (got x) k = Some l -> nth_error (got (deedm x a)) k = Some l
         /\ (l <> Buffer -> ~ writes_to k a -> content (mem (now (deedm x a))) l = content (mem (now x)) l)).
  Proof.
    intros x [b|g|k f] Hx; pose proof (o_safe x Hx) as S; assert (PF : held x Field) by (now left); assert (PS : held x Source) by (right; now left).
    - unfold deed_m, do_m.
      assert (G : forall m', safe (held x) (mem m') -> sound {| now := m'; got := got x |}).
      { intros m' S'. constructor; cbn [got now]; [exact S' | apply (o_apart x Hx) | apply (o_once x Hx)]. }
      assert (St : forall b, sound {| now := store (now x) (perform u (solution_of (now x)) b); got := got x |}
        /\ solution_of (store (now x) (perform u (solution_of (now x)) b)) = perform u (solution_of (now x)) b
        /\ (forall k l, nth_error (got x) k = Some l -> nth_error (got x) k = Some l
          /\ (l <> Buffer -> ~ False -> content (mem (store (now x) (perform u (solution_of (now x)) b))) l = content (mem (now x)) l))).
      { intros b'. split; [apply G; simpl; now do 2 apply me_safe_write|]. split; [apply me_solution_of_store|].
        intros k l Hk. split; [exact Hk|]. intros _ _. destruct (o_apart x Hx l (nth_error_In _ _ Hk)) as [N1 N2].
        unfold store. cbn [mem]. rewrite !me_write_other by assumption. reflexivity. }
      destruct b; try exact (St _). cbn [now got perform].
      destruct (me_next (held x) fresh (now x) S PF PS) as (A & _ & B & _ & D).
      split; [now apply G|]. split; [exact A|]. intros k l Hk. split; [exact Hk|]. intros Nb _.
      destruct (o_apart x Hx l (nth_error_In _ _ Hk)) as [N1 N2]. apply D; auto. right. right. split; [|exact Nb]. eapply nth_error_In; eauto.
    - unfold deed_m. destruct (me_read (held x) g (now x) S PF PS) as (R & V). pose proof (me_read_shared g (now x)) as Sh.
      destruct (readm g (now x)) as [m [l|e]]; cbn [fst snd now got] in *.
      + destruct (value u g (solution_of (now x))) as [v|e']; cbn in V; [|contradiction].
        destruct V as (r & h' & E & (S' & K & Cr) & Vl & Nl & Hl & N1 & N2 & Pr). injection E as <- <-.
        assert (El : own_array lib (solution_of (now x)) g = false -> l = Buffer) by (intros Q; now apply Sh).
        split; [|split].
        * constructor; cbn [got now].
          -- destruct (own_array lib (solution_of (now x)) g) eqn:Q.
             ++ eapply me_safe_weaken; [|exact (proj1 (Pr eq_refl))]. unfold held. cbn [got]. intros y [Hy|[Hy|[Hy Ny]]]; [left; now left | left; right; now left |].
                apply in_app_or in Hy. destruct Hy as [Hy|[Hy|[]]]; [left; right; right; now split | now right].
             ++ specialize (El eq_refl). subst l. eapply me_safe_weaken; [|exact S']. unfold held. cbn [got]. intros y [Hy|[Hy|[Hy Ny]]]; [now left | right; now left |].
                apply in_app_or in Hy. destruct Hy as [Hy|[Hy|[]]]; [right; right; now split | congruence].
          -- intros y Hy. apply in_app_or in Hy. destruct Hy as [Hy|[Hy|[]]]; [now apply (o_apart x Hx)|]. subst y.
             split; intros ->; contradiction.
          -- intros j k y Hj Hk Nb.
             assert (New_index : forall i, nth_error (got x ++ [l]) i = Some y -> (i < length (got x))%nat /\ nth_error (got x) i = Some y \/ i = length (got x) /\ y = l).
             { intros i Hi. destruct (lt_dec i (length (got x))) as [W|W].
               - left. rewrite nth_error_app1 in Hi by exact W. now split.
               - right. rewrite nth_error_app2 in Hi by lia. destruct (i - length (got x))%nat as [|z] eqn:Z; simpl in Hi; [|destruct z; discriminate].
                 injection Hi as ->. split; [lia | reflexivity]. }
             destruct (New_index j Hj) as [[Wj Ij]|[Wj Ij]], (New_index k Hk) as [[Wk Ik]|[Wk Ik]].
             ++ eapply (o_once x Hx); eauto.
             ++ subst y. exfalso. apply Nl. right. right. split; [|exact Nb]. eapply nth_error_In; eauto.
             ++ subst y. exfalso. apply Nl. right. right. split; [|exact Nb]. eapply nth_error_In; eauto.
             ++ lia.
        * unfold solution_of. rewrite R, (K Field PF), (K Source PS). reflexivity.
        * intros k y Hk. split. { rewrite nth_error_app1; [exact Hk|]. apply nth_error_Some. congruence. }
          intros Nb _. apply K. right. right. split; [|exact Nb]. eapply nth_error_In; eauto.
      + destruct (value u g (solution_of (now x))) as [v|e']; cbn in V; [contradiction|].
        destruct V as (_ & (S' & K & Cr)).
        split; [constructor; cbn [got now]; [exact S' | apply (o_apart x Hx) | apply (o_once x Hx)]|].
        split; [unfold solution_of; rewrite R, (K Field PF), (K Source PS); reflexivity|].
        intros k y Hk. split; [exact Hk|]. intros Nb _. apply K. right. right. split; [|exact Nb]. eapply nth_error_In; eauto.
    - unfold deed_m. destruct (nth_error (got x) k) as [l|] eqn:E.
      + destruct (o_apart x Hx l (nth_error_In _ _ E)) as [N1 N2].
        split; [constructor; cbn [got now mem]; [now apply me_safe_write | apply (o_apart x Hx) | apply (o_once x Hx)]|].
        split; [unfold solution_of; cbn [now rest mem]; rewrite !me_write_other by congruence; reflexivity|].
        cbn [now got mem]. intros j y Hj. split; [exact Hj|]. intros Nb W. apply me_write_other. intros ->. apply W. simpl.
        symmetry. eapply (o_once x Hx); eauto.
      + split; [exact Hx|]. split; [reflexivity|]. intros j y Hj. split; [exact Hj|]. reflexivity.
  Qed.
  Lemma me_session : forall l x, sound x -> sound (after x l) /\ solution_of (now (after x l)) = history u (operations l) (solution_of (now x))
    /\ (forall k y, nth_error (got x) k = Some y -> nth_error (got (after x l)) k = Some y
         /\ (y <> Buffer -> Forall (fun d => ~ writes_to k d) l -> content (mem (now (after x l))) y = content (mem (now x)) y)).
  Proof.
    induction l as [|a l IH]; intros x Hx; [split; [exact Hx|]; split; [reflexivity|]; now intros; split|].
    destruct (me_deed x a Hx) as (H1 & H2 & H3). destruct (IH _ H1) as (I1 & I2 & I3). unfold session_after in *. cbn [fold_left].
    split; [exact I1|]. split.
    - rewrite I2, H2. destruct a as [b|g|k f]; reflexivity.
    - intros k y Hk. destruct (H3 k y Hk) as [A B]. destruct (I3 k y A) as [D E]. split; [exact D|].
      intros Nb W. inversion W as [|? ? W1 W2]; subst. rewrite (E Nb W2). now apply B.
  Qed.

  (** ** Results *)
  Lemma me_solution_start : forall s, solution_of (now (start s)) = s.
  Proof. intros [k b [g ve ma al be ee eh he hh src] F p i r]. reflexivity. Qed.
  Lemma me_refines : forall s l, solution_of (now (after (start s) l)) = history u (operations l) s.
  Proof. intros s l. destruct (me_session l (start s) (me_sound_start s)) as (_ & H & _). now rewrite H, me_solution_start. Qed.
  Lemma me_reads : forall s l g, let x := after (start s) l in
    match value u g (history u (operations l) s) with
    | Ok v => array (after (start s) (l ++ [Read g])) (obtained x) = Some v
    | Err e => snd (readm g (now x)) = Err e /\ got (after (start s) (l ++ [Read g])) = got x
    end.
  Proof.
    intros s l g x. destruct (me_session l (start s) (me_sound_start s)) as (Hx & H & _). rewrite me_solution_start in H. fold x in Hx, H.
    unfold session_after. rewrite fold_left_app. cbn [fold_left]. change (fold_left deedm l (start s)) with x. rewrite <- H.
    assert (PF : held x Field) by (now left). assert (PS : held x Source) by (right; now left).
    destruct (me_read (held x) g (now x) (o_safe x Hx) PF PS) as (R & V). unfold deed_m, array, obtained.
    destruct (readm g (now x)) as [m r]. cbn [fst snd] in *.
    destruct (value u g (solution_of (now x))) as [v|e], r as [y|e']; cbn in V; try contradiction.
    - destruct V as (r & h' & E & _ & Vl & _). injection E as <- <-. cbn [got now].
      rewrite nth_error_app2 by lia. rewrite Nat.sub_diag. simpl. now rewrite Vl.
    - destruct V as [-> _]. now split.
  Qed.
  Lemma me_snapshot : forall s l g v later, let x := after (start s) l in
    value u g (history u (operations l) s) = Ok v -> own_array lib (history u (operations l) s) g = true ->
    Forall (fun d => ~ writes_to (obtained x) d) later ->
    array (after (start s) (l ++ Read g :: later)) (obtained x) = Some v.
  Proof.
    intros s l g v later x Hv Ho W.
    pose proof (me_reads s l g) as Q. fold x in Q. cbv zeta in Q. rewrite Hv in Q.
    replace (l ++ Read g :: later) with ((l ++ [Read g]) ++ later) by now rewrite <- app_assoc.
    destruct (me_session (l ++ [Read g]) (start s) (me_sound_start s)) as (Hy & _ & _).
    unfold session_after in *. rewrite fold_left_app.
    set (y := fold_left deedm (l ++ [Read g]) (start s)) in *.
    destruct (me_session later y Hy) as (_ & _ & K). unfold array in Q |- *.
    destruct (nth_error (got y) (obtained x)) as [r|] eqn:E; [|discriminate]. cbn in Q. destruct (K _ _ E) as [A B]. unfold session_after in A, B. rewrite A. cbn.
    rewrite B; [exact Q | | exact W].
    (* the array is not the work array *)
    destruct (me_session l (start s) (me_sound_start s)) as (Hx & H & _). rewrite me_solution_start in H. change (sound x) in Hx.
    change (solution_of (now x) = history u (operations l) s) in H.
    assert (PF : held x Field) by (now left). assert (PS : held x Source) by (right; now left).
    destruct (me_read (held x) g (now x) (o_safe x Hx) PF PS) as (R & V). rewrite H, Hv in V.
    unfold y in E. rewrite fold_left_app in E. cbn [fold_left] in E. change (fold_left deedm l (start s)) with x in E. unfold deed_m in E.
    destruct (readm g (now x)) as [m [r'|e']]; cbn in V; [|contradiction]. cbn [got] in E. unfold obtained in E.
    rewrite nth_error_app2 in E by lia. rewrite Nat.sub_diag in E. cbn in E. injection E as <-.
    destruct V as (r & h' & E & _ & _ & _ & _ & _ & _ & Pr). injection E as <- <-.
    intros ->. destruct (Pr Ho) as [S _]. apply (s_buffer _ _ S). now right.
  Qed.
  (** Two properties that both return the work array return the same array. *)
  Lemma me_aliased : forall s l g l2 g2 v v2, let x := after (start s) l in
    value u g (history u (operations l) s) = Ok v -> own_array lib (history u (operations l) s) g = false ->
    value u g2 (history u (operations (l ++ l2)) s) = Ok v2 -> own_array lib (history u (operations (l ++ l2)) s) g2 = false ->
    array (after (start s) ((l ++ Read g :: l2) ++ [Read g2])) (obtained x) = Some v2.
  Proof.
    intros s l g l2 g2 v v2 x V1 O1 V2 O2.
    assert (Buf : forall l g v, value u g (history u (operations l) s) = Ok v -> own_array lib (history u (operations l) s) g = false ->
      nth_error (got (after (start s) (l ++ [Read g]))) (obtained (after (start s) l)) = Some Buffer).
    { clear. intros l g v V O. rewrite <- (me_refines s l) in V, O. unfold session_after. rewrite fold_left_app. cbn [fold_left].
      set (x := fold_left deedm l (start s)). unfold session_after in V, O. fold x in V, O.
      destruct (me_session l (start s) (me_sound_start s)) as (Hx & _ & _). change (sound x) in Hx.
      assert (PF : held x Field) by (now left). assert (PS : held x Source) by (right; now left).
      destruct (me_read (held x) g (now x) (o_safe x Hx) PF PS) as (_ & R). rewrite V in R.
      pose proof (me_read_shared g (now x)) as Sh. unfold deed_m. destruct (readm g (now x)) as [m [y|e]]; cbn [snd got] in *; cbn in R; [|contradiction].
      unfold obtained. rewrite nth_error_app2 by lia. rewrite Nat.sub_diag. cbn. now rewrite (Sh y O eq_refl). }
    assert (Op : operations (l ++ Read g :: l2) = operations (l ++ l2)) by (unfold operations; rewrite !flat_map_app; reflexivity).
    pose proof (Buf l g v V1 O1) as B1. pose proof (Buf (l ++ Read g :: l2) g2 v2) as B2. rewrite Op in B2. specialize (B2 V2 O2).
    pose proof (me_reads s (l ++ Read g :: l2) g2) as R. cbv zeta in R. rewrite Op, V2 in R.
    unfold array in R |- *. rewrite B2 in R. cbn in R.
    assert (N : nth_error (got (after (start s) ((l ++ Read g :: l2) ++ [Read g2]))) (obtained x) = Some Buffer).
    { replace ((l ++ Read g :: l2) ++ [Read g2]) with ((l ++ [Read g]) ++ (l2 ++ [Read g2])) by (rewrite <- !app_assoc; reflexivity).
      unfold session_after. rewrite fold_left_app.
      destruct (me_session (l ++ [Read g]) (start s) (me_sound_start s)) as (Hy & _ & _).
      destruct (me_session (l2 ++ [Read g2]) _ Hy) as (_ & _ & K). apply K. exact B1. }
    rewrite N. exact R.
  Qed.
End Sessions.
Lemma me_d_changes : forall u s c p, let S := o_source (operators s) c p in
  S <> RtoC 0 -> snd (o_alpha (operators s)) <> 0%R -> o_beta (operators s) <> 0%R -> wavenumber s <> 0%R -> c_light u <> 0%R -> mu_0 u <> 0%R ->
  displacement_field u (operators s) (wavenumber s) (field s) c p
  <> displacement_field u (operators (set_source s (fun _ _ => RtoC 0))) (wavenumber s) (field s) c p.
Proof.
  intros u s c p S HS Ha Hb Hk Hc Hm E. unfold displacement_field in E.
  change (curl (o_grid (operators (set_source s (fun _ _ => RtoC 0)))) _ _ c p) with
    (curl (o_grid (operators s)) (vector_length (operators s)) (magnetizing_field u (operators s) (wavenumber s) (field s)) c p) in E.
  set (H := curl _ _ _ c p) in E. cbn [set_source set_prev_norm set_operators with_source operators o_source o_beta o_alpha] in E. fold S in E.
  assert (W : RtoC (angular_frequency u (wavenumber s)) <> 0).
  { unfold angular_frequency. intros Z. injection Z as Z. now apply Rmult_integral in Z as [Z|Z]. }
  assert (RtoC (mu_0 u) <> 0) by (intros Z; injection Z as Z; contradiction).
  assert (RtoC (o_beta (operators s)) <> 0) by (intros Z; injection Z as Z; contradiction).
  assert (im (o_alpha (operators s)) <> 0) by (unfold im; intros Z; injection Z as Z; contradiction).
  assert (Ci <> 0) by (intros Z; injection Z as Z; lra).
  assert (Z : S * (RtoC (o_beta (operators s)) / (Ci * RtoC (angular_frequency u (wavenumber s)) * RtoC (mu_0 u)) * (im (o_alpha (operators s)) / Ci)
     * (Ci / RtoC (angular_frequency u (wavenumber s)))) = 0).
  { transitivity ((H * RtoC (wavenumber s) - RtoC (o_beta (operators s)) / (Ci * RtoC (angular_frequency u (wavenumber s)) * RtoC (mu_0 u)) *
      (0 * (Ci / im (o_alpha (operators s)) / RtoC (o_beta (operators s))) * (im (o_alpha (operators s)) / Ci))) * (Ci / RtoC (angular_frequency u (wavenumber s)))
      - (H * RtoC (wavenumber s) - RtoC (o_beta (operators s)) / (Ci * RtoC (angular_frequency u (wavenumber s)) * RtoC (mu_0 u)) *
      (S * (im (o_alpha (operators s)) / Ci))) * (Ci / RtoC (angular_frequency u (wavenumber s)))); [field; auto|]. rewrite E. ring. }
  assert (Z2 : S = 0).
  { transitivity (S * (RtoC (o_beta (operators s)) / (Ci * RtoC (angular_frequency u (wavenumber s)) * RtoC (mu_0 u)) * (im (o_alpha (operators s)) / Ci)
     * (Ci / RtoC (angular_frequency u (wavenumber s)))) * (Ci * RtoC (angular_frequency u (wavenumber s)) * RtoC (mu_0 u) * RtoC (angular_frequency u (wavenumber s))
     / (RtoC (o_beta (operators s)) * im (o_alpha (operators s))))); [field; auto|]. rewrite Z. ring. }
  contradiction.
Qed.
