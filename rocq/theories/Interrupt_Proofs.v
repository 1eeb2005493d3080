(** Iterations that are interrupted, on the memory. *)
From Coq Require Import Reals Lra Lia List Arith ZArith Bool.
Require Import Verif.Base Verif.Cplx Verif.CSum Verif.Field Verif.Fourier_Model Verif.Vec_Model Verif.Solver_Model Verif.Derived_Model Verif.Run_Model Verif.Run_Spec.
Require Import Verif.Memory_Model Verif.Memory_Spec Verif.Memory_Proofs Verif.Memory_Steps Verif.Memory_Sessions Verif.Interrupt_Model Verif.Interrupt_Spec.
Import ListNotations.
Local Open Scope R_scope.
Local Open Scope C_scope.

(** ** Sequences of statements *)
Lemma finish_seq {A B} (p : prog A) (q : A -> prog B) : forall m, finish (seq p q) m = let (a, m1) := finish p m in finish (q a) m1.
Proof. induction p as [a|X f k IH]; intros m; cbn; [reflexivity|]. destruct (f m) as [x m1]. apply IH. Qed.
Lemma stops_seq {A B} (p : prog A) (q : A -> prog B) : forall m m', stops (seq p q) m m' -> stops p m m' \/ (let (a, m1) := finish p m in stops (q a) m1 m').
Proof.
  induction p as [a|X f k IH]; intros m m' H; cbn in *; [right; exact H|]. destruct H as [H|H]; [left; left; exact H|].
  destruct (f m) as [x m1]. destruct (IH x m1 m' H) as [D|D]; [left; right; exact D|right; exact D].
Qed.
Lemma stops_finish {A} (p : prog A) : forall m, stops p m (snd (finish p m)).
Proof. induction p as [a|X f k IH]; intros m; cbn; [reflexivity|]. right. destruct (f m) as [x m1]. apply IH. Qed.

(** Statements that do what a function on the memory does. *)
Definition mirrors {X} (p : prog X) (f : M X) : Prop := forall m, finish p m = let (x, h) := f (mem m) in (x, {| rest := rest m; mem := h |}).
Lemma mirrors_arrays {X} (f : M X) : mirrors (on_arrays f) f.
Proof. intros m. cbn. destruct (f (mem m)) as [x h]. reflexivity. Qed.
Lemma mirrors_done {X} (x : X) : mirrors (Done x) (ret x).
Proof. intros [s h]. reflexivity. Qed.
Lemma mirrors_seq {X Y} (p : prog X) (f : M X) (q : X -> prog Y) (k : X -> M Y) : mirrors p f -> (forall x, mirrors (q x) (k x)) -> mirrors (seq p q) (bindm f k).
Proof. intros H1 H2 m. rewrite finish_seq, H1. unfold bindm. destruct (f (mem m)) as [x h]. rewrite H2. reflexivity. Qed.

Section Calm.
  Variables (lib : library) (aligned : loc -> bool) (junk : nat -> vfield).
  Ltac mir := repeat (first [apply mirrors_arrays | apply mirrors_done | apply mirrors_seq; [|intros ?] | assumption]).
  Lemma curl_mirrors o l : mirrors (curl_p lib aligned junk o l) (curl_m lib aligned junk o l).
  Proof. unfold curl_p, curl_m. mir. Qed.
  Lemma longitudinal_mirrors g l : mirrors (longitudinal_p g l) (longitudinal_m g l).
  Proof. unfold longitudinal_p, longitudinal_m. mir. Qed.
  Lemma chi_mirrors o l : mirrors (chi_p lib aligned junk o l) (chi_m lib aligned junk o l).
  Proof. unfold chi_p, chi_m. destruct (o_magnetic o); mir; apply curl_mirrors. Qed.
  Lemma green_mirrors o l : mirrors (green_p lib aligned junk o l) (green_m lib aligned junk o l).
  Proof. unfold green_p, green_m. mir. destruct (o_vectorial o); mir. Qed.
  Lemma update_mirrors o : mirrors (update_p lib aligned junk o) (update_m lib aligned junk o).
  Proof. unfold update_p, update_m. repeat (first [apply green_mirrors | apply chi_mirrors | apply mirrors_arrays | apply mirrors_seq; [|intros ?]]). Qed.

  (** ** Statements that leave the protected arrays and the attributes *)
  Variable P : loc -> Prop.
  Definition known (c : nat) (l : loc) : Prop := match l with New n => (n < c)%nat | _ => True end.
  Definition calm {X} (c : nat) (p : prog X) (post : X -> nat -> Prop) : Prop := forall m, safe P (mem m) -> (c <= created (mem m))%nat ->
    (forall m', stops p m m' -> rest m' = rest m /\ leaves P (mem m) (mem m')) /\ post (fst (finish p m)) (created (mem (snd (finish p m)))).
  Lemma leaves_refl h : safe P h -> leaves P h h.
  Proof. intros H. split; [exact H|]. split; [apply me_keeps_refl|lia]. Qed.
  Lemma calm_seq {X Y} c (p : prog X) mid (q : X -> prog Y) post : calm c p mid -> (forall x c', (c <= c')%nat -> mid x c' -> calm c' (q x) post) -> calm c (seq p q) post.
  Proof.
    intros H1 H2 m Hs Hc. destruct (H1 m Hs Hc) as (A & B). pose proof (stops_finish p m) as F. destruct (A _ F) as (R1 & L1). rewrite finish_seq.
    destruct (finish p m) as [x m1] eqn:E. cbn [fst snd] in *.
    destruct (H2 x (created (mem m1)) ltac:(pose proof (proj2 (proj2 L1)); lia) B m1 (proj1 L1) (le_n _)) as (A2 & B2). split; [|exact B2].
    intros m' Hst. apply stops_seq in Hst. rewrite E in Hst. destruct Hst as [Hst|Hst]; [exact (A m' Hst)|]. destruct (A2 m' Hst) as (R2 & L2).
    split; [congruence|]. exact (me_leaves_trans P _ _ _ L1 L2).
  Qed.
  Lemma calm_done {X} c (x : X) (post : X -> nat -> Prop) : (forall c', (c <= c')%nat -> post x c') -> calm c (Done x) post.
  Proof. intros H m Hs Hc. cbn. split; [intros m' ->; split; [reflexivity|apply leaves_refl; exact Hs]|]. apply H. exact Hc. Qed.
  Lemma calm_arrays {X} c (f : M X) (post : X -> nat -> Prop) :
    (forall h, safe P h -> (c <= created h)%nat -> exists x h', f h = (x, h') /\ leaves P h h' /\ post x (created h')) -> calm c (on_arrays f) post.
  Proof.
    intros H m Hs Hc. destruct (H (mem m) Hs Hc) as (x & h' & E & L & Q). cbn. rewrite E. cbn. split; [|exact Q].
    intros m' [->| ->]; [split; [reflexivity|apply leaves_refl; exact Hs]|]. split; [reflexivity|exact L].
  Qed.
  Lemma known_here h c l : (c <= created h)%nat -> known c l -> here h l.
  Proof. destruct l; cbn; auto. intros; lia. Qed.
  Lemma here_known h l : here h l -> known (created h) l.
  Proof. destruct l; cbn; auto. Qed.
  Lemma known_le c c' l : (c <= c')%nat -> known c l -> known c' l.
  Proof. destruct l; cbn; auto. intros; lia. Qed.

  (** An array that can be transformed; one that can be transformed back. *)
  Definition outer_array (c : nat) (l : loc) : Prop := ~ P l /\ known c l /\ l <> Spectrum /\ l <> Work.
  Definition inner_array (c : nat) (l : loc) : Prop := ~ P l /\ known c l /\ l <> Buffer /\ l <> Work.
  Lemma outer_le c c' l : (c <= c')%nat -> outer_array c l -> outer_array c' l.
  Proof. intros H (A & B & D). split; [exact A|]. split; [exact (known_le c c' l H B)|exact D]. Qed.
  Lemma inner_le c c' l : (c <= c')%nat -> inner_array c l -> inner_array c' l.
  Proof. intros H (A & B & D). split; [exact A|]. split; [exact (known_le c c' l H B)|exact D]. Qed.
  Definition anything {X} : X -> nat -> Prop := fun _ _ => True.

  Lemma calm_get c l : calm c (on_arrays (get l)) anything.
  Proof. apply calm_arrays. intros h Hs _. exists (content h l), h. split; [reflexivity|]. split; [apply leaves_refl; exact Hs|exact I]. Qed.
  Lemma calm_put c l f : ~ P l -> calm c (on_arrays (put l f)) anything.
  Proof. intros N. apply calm_arrays. intros h Hs _. exists tt, (write h l f). split; [reflexivity|]. split; [exact (me_put P h l f Hs N)|exact I]. Qed.
  Lemma calm_change c l y f : ~ P l -> calm c (on_arrays (change l y f)) anything.
  Proof. intros N. apply calm_arrays. intros h Hs _. destruct (me_change P h l y f Hs N) as (h' & E & L & _). exists tt, h'. split; [exact E|]. split; [exact L|exact I]. Qed.
  Lemma calm_change1 c l f : ~ P l -> calm c (on_arrays (change1 l f)) anything.
  Proof. intros N. apply calm_arrays. intros h Hs _. destruct (me_change1 P h l f Hs N) as (h' & E & L & _). exists tt, h'. split; [exact E|]. split; [exact L|exact I]. Qed.
  Lemma calm_new c f : calm c (on_arrays (new f)) (fun r c' => outer_array c' r /\ inner_array c' r).
  Proof.
    apply calm_arrays. intros h Hs _. destruct (me_new_returns P h f Hs) as (r & h' & E & L & _ & N & Hr & A & B & _). exists r, h'. split; [exact E|]. split; [exact L|].
    apply here_known in Hr. split; (split; [exact N|]; split; [exact Hr|]); split; try assumption. unfold new in E. injection E as <- _. discriminate.
  Qed.
  Lemma calm_ft c o l : outer_array c l -> calm c (on_arrays (ft_m lib aligned junk (shape o) true l)) (fun r c' => inner_array c' r).
  Proof.
    intros (N & K & A & _). apply calm_arrays. intros h Hs Hc. destruct (me_ft lib aligned junk P h (shape o) true l Hs N A (known_here h c l Hc K)) as (r & h' & E & L & _ & N' & Hr & B & D & _).
    exists r, h'. split; [exact E|]. split; [exact L|]. apply here_known in Hr. split; [exact N'|]. split; [exact Hr|]. split; assumption.
  Qed.
  Lemma calm_ift c o l : inner_array c l -> calm c (on_arrays (ift_m lib aligned junk (shape o) true l)) (fun r c' => outer_array c' r).
  Proof.
    intros (N & K & A & _). apply calm_arrays. intros h Hs Hc. destruct (me_ift lib aligned junk P h (shape o) true l Hs N A (known_here h c l Hc K)) as (r & h' & E & L & _ & N' & Hr & B & D & _).
    exists r, h'. split; [exact E|]. split; [exact L|]. apply here_known in Hr. split; [exact N'|]. split; [exact Hr|]. split; assumption.
  Qed.
  Lemma calm_mul c t l : outer_array c l -> calm c (on_arrays (mul_out lib t l)) (fun r c' => outer_array c' r).
  Proof.
    intros (N & K & A & B). apply calm_arrays. intros h Hs Hc. destruct (me_mul_out lib P h t l Hs N (known_here h c l Hc K) A B) as (r & h' & E & L & _ & N' & Hr & B' & D & _).
    exists r, h'. split; [exact E|]. split; [exact L|]. apply here_known in Hr. split; [exact N'|]. split; [exact Hr|]. split; assumption.
  Qed.

  Hypothesis PB : ~ P Buffer.
  Hypothesis PW : ~ P Work.
  Lemma buffer_outer c : outer_array c Buffer.
  Proof. split; [exact PB|]. split; [exact I|]. split; discriminate. Qed.
  Lemma calm_curl c o l : outer_array c l -> calm c (curl_p lib aligned junk o l) (fun r c' => outer_array c' r).
  Proof.
    intros H. unfold curl_p. eapply calm_seq; [apply calm_ft; exact H|]. cbv beta. intros f c1 _ Hf. eapply calm_seq; [apply calm_get|]. intros v c2 _ _.
    eapply calm_seq; [apply calm_new|]. cbv beta. intros r c3 _ (_ & Hr). apply calm_ift. exact Hr.
  Qed.
  Lemma calm_longitudinal c g f : calm c (longitudinal_p g f) (fun r _ => r = Buffer).
  Proof.
    unfold longitudinal_p. eapply calm_seq; [apply calm_get|]. intros v c1 _ _. eapply calm_seq; [apply calm_put; exact PW|]. intros _ c2 _ _.
    eapply calm_seq; [apply calm_change1; exact PW|]. intros _ c3 _ _. eapply calm_seq; [apply calm_get|]. intros w c4 _ _. eapply calm_seq; [apply calm_put; exact PB|]. intros _ c5 _ _.
    apply calm_done. reflexivity.
  Qed.
  Lemma calm_chi c o l : outer_array c l -> calm c (chi_p lib aligned junk o l) (fun r c' => outer_array c' r).
  Proof.
    intros H. unfold chi_p. destruct (o_magnetic o); [|apply calm_mul; exact H].
    eapply calm_seq; [apply calm_get|]. intros e c1 H1 _. eapply calm_seq; [apply calm_new|]. cbv beta. intros a c2 H2 (Ha & _).
    eapply calm_seq; [apply calm_new|]. cbv beta. intros b c3 H3 (Hb & _). eapply calm_seq; [apply calm_curl; apply (outer_le c); [lia|exact H]|]. cbv beta. intros d c4 H4 Hd.
    eapply calm_seq; [apply calm_get|]. intros v c5 H5 _. eapply calm_seq; [apply calm_new|]. intros t c6 H6 _. eapply calm_seq; [apply calm_change; apply Ha|]. intros _ c7 H7 _.
    eapply calm_seq; [apply calm_mul; apply (outer_le c4); [lia|exact Hd]|]. cbv beta. intros x c8 H8 _. eapply calm_seq; [apply calm_change; apply Hb|]. intros _ c9 H9 _.
    eapply calm_seq; [apply calm_curl; apply (outer_le c3); [lia|exact Hb]|]. cbv beta. intros y c10 H10 _. eapply calm_seq; [apply calm_change; apply Ha|]. intros _ c11 H11 _.
    apply calm_done. intros c' H'. apply (outer_le c2); [lia|exact Ha].
  Qed.
  Lemma calm_green c o l : outer_array c l -> calm c (green_p lib aligned junk o l) (fun r c' => outer_array c' r).
  Proof.
    intros H. unfold green_p. eapply calm_seq; [apply calm_ft; exact H|]. cbv beta. intros f c1 H1 Hf. eapply calm_seq with (mid := anything).
    - destruct (o_vectorial o); [|apply calm_change1; apply Hf]. eapply calm_seq; [apply calm_longitudinal|]. cbv beta. intros p c2 _ ->.
      eapply calm_seq; [apply calm_change; apply Hf|]. intros _ c3 _ _. eapply calm_seq; [apply calm_change1; apply Hf|]. intros _ c4 _ _.
      eapply calm_seq; [apply calm_change1; exact PB|]. intros _ c5 _ _. apply calm_change; apply Hf.
    - intros _ c2 H2 _. apply calm_ift. apply (inner_le c1); [lia|exact Hf].
  Qed.
  Lemma calm_update c o : calm c (update_p lib aligned junk o) (fun r c' => outer_array c' r).
  Proof.
    unfold update_p. eapply calm_seq; [apply calm_change; exact PB|]. intros _ c1 _ _. eapply calm_seq; [apply calm_chi; apply buffer_outer|]. cbv beta. intros d c2 _ Hd.
    eapply calm_seq; [apply calm_change; apply Hd|]. intros _ c3 H3 _. eapply calm_seq; [apply calm_green; apply (outer_le c2); [lia|exact Hd]|]. cbv beta. intros e c4 _ He.
    eapply calm_seq; [apply calm_change; apply He|]. intros _ c5 H5 _. apply calm_chi. apply (outer_le c4); [lia|exact He].
  Qed.
End Calm.
