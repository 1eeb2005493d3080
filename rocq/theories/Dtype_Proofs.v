(** Proofs about the data types of beam sections. *)
From Coq Require Import List Bool.
From Verif Require Import Base Dtype_Model.
Import ListNotations.

Section Package.
  Variables keeps single : bool.
  Lemma ft_complex x : is_complex (s_type (set_field_ft x)) = true.
  Proof. destruct x as [[] [] []]; reflexivity. Qed.
  Lemma field_complex x : is_complex (s_type (set_field keeps single x)) = true.
  Proof. unfold set_field. destruct single; [apply ft_complex|]. destruct x as [d [] z]; reflexivity. Qed.
  Lemma read_ft s : is_complex (s_type s) = true -> exists s', get_field_ft s = Ok s' /\ s_type s' = s_type s
    /\ s_vectorial s' = s_vectorial s /\ s_zero s' = s_zero s.
  Proof.
    intros H. unfold get_field_ft, imul. rewrite H. destruct (s_pending s); eexists; cbn; repeat split; reflexivity.
  Qed.
  Lemma read_field s : is_complex (s_type s) = true -> exists s' d, get_field keeps single s = Ok (s', d) /\ s_type s' = s_type s
    /\ s_vectorial s' = s_vectorial s /\ is_complex d = true.
  Proof.
    intros H. destruct (read_ft s H) as (s' & E & T & V & Z). unfold get_field. rewrite E. cbn [bind].
    eexists. eexists. split; [reflexivity|]. split; [exact T|]. split; [exact V|].
    rewrite T. destruct single; [exact H|]. destruct (s_zero s'); [exact H|reflexivity].
  Qed.
  Lemma act_complex s a : is_complex (s_type s) = true ->
    exists s', act keeps single s a = Ok s' /\ is_complex (s_type s') = true.
  Proof.
    intros H. destruct a as [x|x| | |distance m]; cbn [act].
    - eexists. split; [reflexivity|apply field_complex].
    - eexists. split; [reflexivity|apply ft_complex].
    - destruct (read_field s H) as (s' & d & E & T & _). rewrite E. cbn [bind]. exists s'. split; [reflexivity|]. now rewrite T.
    - destruct (read_ft s H) as (s' & E & T & _). rewrite E. exists s'. split; [reflexivity|]. now rewrite T.
    - unfold propagate.
      set (s1 := match distance with Backward => _ | _ => s end).
      assert (H1 : is_complex (s_type s1) = true) by (destruct distance; exact H). clearbody s1.
      assert (F : forall s2 : section, is_complex (s_type s2) = true ->
                exists s', bind (Ok s2) (fun s => Ok (match distance with Forward => travels Forward s | _ => s end)) = Ok s'
                  /\ is_complex (s_type s') = true).
      { intros s2 H2. cbn [bind]. eexists. split; [reflexivity|]. destruct distance; exact H2. }
      destruct m; cbv zeta.
      + now apply F.
      + now apply F.
      + unfold imul. rewrite H1. cbn [bind]. now apply F.
      + destruct (read_field s1 H1) as (s' & d & E & _ & _ & D). rewrite E. cbn [bind]. unfold imul. rewrite D. cbn [bind].
        apply F, field_complex.
  Qed.
  Lemma acts_complex l : forall s, is_complex (s_type s) = true ->
    exists s', acts keeps single s l = Ok s' /\ is_complex (s_type s') = true.
  Proof.
    induction l as [|a l IH]; intros s H; cbn [acts]; [now exists s|].
    destruct (act_complex s a H) as (s' & E & H'). rewrite E. cbn [bind]. now apply IH.
  Qed.
End Package.

Theorem always_works keeps single field field_ft dt v l :
  field <> None \/ field_ft <> None ->
  exists s, bind (construct keeps single field field_ft dt v) (fun s => acts keeps single s l) = Ok s
    /\ is_complex (s_type s) = true.
Proof.
  intros H. unfold construct. destruct field_ft as [x|]; [|destruct field as [x|]; [|destruct H; congruence]]; cbn [bind].
  - apply acts_complex, ft_complex.
  - apply acts_complex, field_complex.
Qed.
Theorem empty_works keeps single d v l :
  is_complex d = true ->
  exists s, bind (construct keeps single None None (Some d) (Some v)) (fun s => acts keeps single s l) = Ok s
    /\ is_complex (s_type s) = true.
Proof. intros H. cbn [construct bind]. now apply acts_complex. Qed.

Theorem kept keeps single x field dt v l :
  is_complex (g_type x) = true -> g_vectorial x = false ->
  Forall (fun a => match a with GetField | GetFieldFt => True | Propagate _ m => m <> Varying | _ => False end) l ->
  exists s, bind (construct keeps single field (Some x) dt v) (fun s => acts keeps single s l) = Ok s
    /\ s_type s = g_type x /\ s_vectorial s = false.
Proof.
  intros H V F. cbn [construct bind].
  assert (T : s_type (set_field_ft x) = g_type x) by (unfold set_field_ft, update_field_ft; rewrite H, V; reflexivity).
  assert (W : s_vectorial (set_field_ft x) = false) by exact V.
  revert T W. generalize (set_field_ft x). induction F as [|a l A F IH]; intros s T W; cbn [acts]; [now exists s|].
  assert (C : is_complex (s_type s) = true) by now rewrite T.
  assert (exists s', act keeps single s a = Ok s' /\ s_type s' = g_type x /\ s_vectorial s' = false) as (s' & E & T' & W').
  { destruct a as [y|y| | |distance m]; cbn [act]; try contradiction.
    - destruct (read_field keeps single s C) as (s' & d & E & T' & V' & _). rewrite E. exists s'. cbn [bind]. split; [reflexivity|]. split; congruence.
    - destruct (read_ft s C) as (s' & E & T' & V' & _). rewrite E. exists s'. split; [reflexivity|]. split; congruence.
    - unfold propagate, imul. destruct m, distance; cbv iota zeta; cbn [travels s_type]; try rewrite C; cbn [bind travels s_type s_vectorial];
        try (eexists; split; [reflexivity|]; cbn [travels s_type s_vectorial]; now split); contradiction. }
  rewrite E. cbn [bind]. now apply IH.
Qed.

Theorem ignored keeps single field field_ft dt dt' v v' :
  field <> None \/ field_ft <> None ->
  construct keeps single field field_ft dt v = construct keeps single field field_ft dt' v'.
Proof. intros H. unfold construct. destruct field_ft; [reflexivity|]. destruct field; [reflexivity|]. destruct H; congruence. Qed.

Theorem single_precision keeps v zero dt v' :
  exists s, construct keeps false (Some {| g_type := Complex64; g_vectorial := v; g_zero := zero |}) None dt v' = Ok s
    /\ s_type s = Complex128.
Proof. eexists. split; [reflexivity|]. destruct keeps, v; reflexivity. Qed.

Theorem empty_fails keeps single v :
  exists s, construct keeps single None None None (Some v) = Ok s
    /\ acts keeps single s [Propagate Forward NoMedium; GetFieldFt] = Err TypeError
    /\ acts keeps single s [Propagate Forward NoMedium; GetField] = Err TypeError.
Proof. eexists. split; [reflexivity|]. split; reflexivity. Qed.

Lemma read_settles s s' : get_field_ft s = Ok s' -> s_pending s' = false.
Proof.
  unfold get_field_ft. destruct (s_pending s) eqn:E.
  - destruct (imul (s_type s)); cbn; [intros H; injection H as <-; reflexivity|discriminate].
  - intros H. injection H as <-. exact E.
Qed.
