(** Proofs about the arrays of a Solution: what the operations compute and what they leave alone. *)
From Coq Require Import Reals List Arith Bool ZArith Lia FunctionalExtensionality.
Require Import Verif.Base Verif.Cplx Verif.CSum Verif.Field Verif.Fourier_Model Verif.Vec_Model Verif.Solver_Model Verif.Derived_Model Verif.Run_Model.
Require Import Verif.Memory_Model Verif.Memory_Spec.
Import ListNotations.
Local Open Scope R_scope.
Local Open Scope C_scope.

Lemma me_eqb : forall a b, loc_eqb a b = true <-> a = b.
Proof.
  intros a b. split.
  - destruct a, b; simpl; intros H; try discriminate; try reflexivity. apply Nat.eqb_eq in H. now subst.
  - intros ->. destruct b; simpl; auto. apply Nat.eqb_refl.
Qed.
Lemma me_refl : forall a, loc_eqb a a = true.
Proof. intros a. now apply me_eqb. Qed.
Lemma me_neq : forall a b, a <> b -> loc_eqb a b = false.
Proof. intros a b H. destruct (loc_eqb a b) eqn:E; auto. apply me_eqb in E. contradiction. Qed.

(** ** Protected arrays *)
Definition here (h : heap) (l : loc) : Prop := match l with New n => (n < created h)%nat | _ => True end.
Record safe (P : loc -> Prop) (h : heap) : Prop := {
  s_buffer : ~ P Buffer; s_spectrum : ~ P Spectrum; s_work : ~ P Work;
  s_fft : ~ P (fft_input h); s_ifft : ~ P (ifft_input h);
  s_fft_out : fft_input h <> Spectrum; s_ifft_out : ifft_input h <> Buffer;
  s_fft_here : here h (fft_input h); s_ifft_here : here h (ifft_input h);
  s_here : forall l, P l -> here h l
}.
Definition keeps (P : loc -> Prop) (h h' : heap) : Prop := forall l, P l -> content h' l = content h l.
Definition also (P : loc -> Prop) (x : loc) : loc -> Prop := fun l => P l \/ l = x.

Lemma me_keeps_refl : forall (P : loc -> Prop) h, keeps P h h.
Proof. intros P h l _. reflexivity. Qed.
Lemma me_keeps_trans : forall (P : loc -> Prop) a b c, keeps P a b -> keeps P b c -> keeps P a c.
Proof. intros P a b c H1 H2 l Hl. rewrite (H2 l Hl). now apply H1. Qed.
Lemma me_keeps_weaken : forall (P Q : loc -> Prop) h h', (forall l, P l -> Q l) -> keeps Q h h' -> keeps P h h'.
Proof. intros P Q h h' H K l Hl. apply K. now apply H. Qed.
Lemma me_safe_weaken : forall (P Q : loc -> Prop) h, (forall l, P l -> Q l) -> safe Q h -> safe P h.
Proof. intros P Q h H S. destruct S. constructor; auto. Qed.
Lemma me_here_le : forall h h' l, (created h <= created h')%nat -> here h l -> here h' l.
Proof. intros h h' [| | | | | n]; simpl; auto; intros; lia. Qed.
Lemma me_also_l : forall (P : loc -> Prop) x l, P l -> also P x l.
Proof. intros. now left. Qed.
Lemma me_also_r : forall (P : loc -> Prop) x, also P x x.
Proof. intros. now right. Qed.

(** ** Steps *)
Lemma me_write_same : forall h l f, content (write h l f) l = f.
Proof. intros. simpl. now rewrite me_refl. Qed.
Lemma me_write_other : forall h l f x, x <> l -> content (write h l f) x = content h x.
Proof. intros. simpl. now rewrite me_neq. Qed.
Lemma me_write : forall (P : loc -> Prop) h l f, safe P h -> ~ P l -> safe P (write h l f) /\ keeps P h (write h l f).
Proof.
  intros P h l f S N. split.
  - destruct S. constructor; auto.
  - intros x Hx. apply me_write_other. intros ->. contradiction.
Qed.
Lemma me_tick : forall (P : loc -> Prop) h, safe P h -> safe P (tick h) /\ keeps P h (tick h).
Proof. intros P h S. split; [destruct S; now constructor | intros l _; reflexivity]. Qed.

(** What an operation with a result does. *)
Definition leaves (P : loc -> Prop) (h h' : heap) : Prop := safe P h' /\ keeps P h h' /\ (created h <= created h')%nat.
Lemma me_leaves_trans : forall (P : loc -> Prop) a b c, leaves P a b -> leaves P b c -> leaves P a c.
Proof.
  intros P a b c (S1 & K1 & C1) (S2 & K2 & C2). split; [exact S2|]. split; [eapply me_keeps_trans; eauto | lia].
Qed.
Lemma me_leaves_weaken : forall (P Q : loc -> Prop) h h', (forall l, P l -> Q l) -> leaves Q h h' -> leaves P h h'.
Proof.
  intros P Q h h' H (S & K & C). split; [eapply me_safe_weaken; eauto|]. split; [eapply me_keeps_weaken; eauto | exact C].
Qed.
Lemma me_put : forall (P : loc -> Prop) h l f, safe P h -> ~ P l -> leaves P h (snd (put l f h)).
Proof. intros P h l f S N. destruct (me_write P h l f S N) as [A B]. split; [exact A|]. split; [exact B | simpl; lia]. Qed.
Lemma me_new : forall (P : loc -> Prop) h f, safe P h ->
  exists h', new f h = (New (created h), h') /\ leaves (also P (New (created h))) h' h' /\ keeps P h h' /\ (created h < created h')%nat
  /\ content h' (New (created h)) = f /\ ~ P (New (created h)) /\ fft_input h' = fft_input h /\ ifft_input h' = ifft_input h
  /\ (forall l, here h l -> content h' l = content h l).
Proof.
  intros P h f S. eexists. split; [reflexivity|].
  assert (N : ~ P (New (created h))) by (intros H; apply (s_here P h S) in H; simpl in H; lia).
  assert (O : forall l, here h l -> l <> New (created h)) by (intros l Hl ->; simpl in Hl; lia).
  assert (K : forall l, here h l ->
    content {| content := fun x => if loc_eqb x (New (created h)) then f else content h x; created := Datatypes.S (created h); ticks := ticks h;
               fft_input := fft_input h; ifft_input := ifft_input h |} l = content h l).
  { intros l Hl. simpl. now rewrite (me_neq _ _ (O l Hl)). }
  destruct S.
  split; [split; [|split; [apply me_keeps_refl | simpl; lia]]|].
  - constructor; simpl; unfold also.
    + intros [H|H]; [auto | discriminate].
    + intros [H|H]; [auto | discriminate].
    + intros [H|H]; [auto | discriminate].
    + intros [H|H]; [auto | revert H; now apply O].
    + intros [H|H]; [auto | revert H; now apply O].
    + assumption.
    + assumption.
    + destruct (fft_input h); simpl in *; auto; lia.
    + destruct (ifft_input h); simpl in *; auto; lia.
    + intros l [H| ->]; [apply s_here0 in H; destruct l; simpl in *; auto; lia | simpl; lia].
  - split; [intros l Hl; apply K; auto|]. split; [simpl; lia|]. split; [simpl; now rewrite Nat.eqb_refl|]. split; [exact N|]. auto.
Qed.

Section Transforms.
  Variables (lib : library) (aligned : loc -> bool) (junk : nat -> vfield).
  Notation ftm := (ft_m lib aligned junk).
  Notation iftm := (ift_m lib aligned junk).
  Definition shared (sh : list nat) (standard : bool) : bool := has_pyfftw lib && standard && negb (trivial sh).

  Lemma me_ft : forall (P : loc -> Prop) h sh st l, safe P h -> ~ P l -> l <> Spectrum -> here h l ->
    exists r h', ftm sh st l h = (r, h') /\ leaves P h h' /\ content h' r = vft sh (content h l) /\ ~ P r /\ here h' r
    /\ r <> Buffer /\ r <> Work /\ (shared sh st = false -> leaves (also P r) h' h').
  Proof.
    intros P h sh st l S Nl Ns Hl. unfold ft_m, shared. destruct (has_pyfftw lib && st && negb (trivial sh))%bool eqn:E.
    - unfold fft_call. set (h1 := if aligned l then set_fft_input l h else write h (fft_input h) (content h l)).
      assert (F : safe P h1 /\ keeps P h h1 /\ created h1 = created h /\ content h1 (fft_input h1) = content h l).
      { subst h1. destruct (aligned l).
        - split; [destruct S; constructor; auto|]. split; [intros x Hx; reflexivity|]. split; reflexivity.
        - destruct (me_write P h (fft_input h) (content h l) S (s_fft P h S)) as [A B]. split; [exact A|]. split; [exact B|].
          split; [reflexivity|]. simpl fft_input. apply me_write_same. }
      destruct F as (S1 & K1 & C1 & V1). cbv zeta.
      destruct (me_write P h1 (fft_input h1) (junk (ticks h1)) S1 (s_fft P h1 S1)) as [S2 K2].
      destruct (me_tick P _ S2) as [S3 K3].
      set (h2 := tick (write h1 (fft_input h1) (junk (ticks h1)))) in *.
      set (v := if loc_eqb (fft_input h1) Spectrum then junk (ticks h2) else vft sh (content h1 (fft_input h1))).
      destruct (me_write P h2 Spectrum v S3 (s_spectrum P h2 S3)) as [S4 K4].
      destruct (me_tick P _ S4) as [S5 K5].
      exists Spectrum. eexists. split; [reflexivity|]. split.
      { split; [exact S5|]. split; [|simpl; rewrite C1; lia].
        eapply me_keeps_trans; [exact K1|]. eapply me_keeps_trans; [exact K2|]. eapply me_keeps_trans; [exact K3|].
        eapply me_keeps_trans; [exact K4 | exact K5]. }
      split.
      { change (content (tick (write h2 Spectrum v)) Spectrum) with (content (write h2 Spectrum v) Spectrum).
        rewrite me_write_same. subst v. rewrite (me_neq _ _ (s_fft_out P h1 S1)), V1. reflexivity. }
      split; [exact (s_spectrum P h S)|]. split; [exact I|]. split; [discriminate|]. split; [discriminate|]. intros D. discriminate D.
    - unfold bindm, get. destruct (me_new P h (vft sh (content h l)) S) as (h' & E' & L & K & C & V & N & F1 & F2 & K').
      rewrite E'. exists (New (created h)), h'. split; [reflexivity|]. split.
      { split; [eapply me_safe_weaken; [|exact (proj1 L)]; apply me_also_l|]. split; [exact K | lia]. }
      split; [exact V|]. split; [exact N|]. split; [simpl; lia|]. split; [discriminate|]. split; [discriminate|]. intros _. exact L.
  Qed.

  Lemma me_ift : forall (P : loc -> Prop) h sh st l, safe P h -> ~ P l -> l <> Buffer -> here h l ->
    exists r h', iftm sh st l h = (r, h') /\ leaves P h h' /\ content h' r = vift sh (content h l) /\ ~ P r /\ here h' r
    /\ r <> Spectrum /\ r <> Work /\ (shared sh st = false -> leaves (also P r) h' h').
  Proof.
    intros P h sh st l S Nl Ns Hl. unfold ift_m, shared. destruct (has_pyfftw lib && st && negb (trivial sh))%bool eqn:E.
    - unfold ifft_call. set (h1 := if aligned l then set_ifft_input l h else write h (ifft_input h) (content h l)).
      assert (F : safe P h1 /\ keeps P h h1 /\ created h1 = created h /\ content h1 (ifft_input h1) = content h l).
      { subst h1. destruct (aligned l).
        - split; [destruct S; constructor; auto|]. split; [intros x Hx; reflexivity|]. split; reflexivity.
        - destruct (me_write P h (ifft_input h) (content h l) S (s_ifft P h S)) as [A B]. split; [exact A|]. split; [exact B|].
          split; [reflexivity|]. simpl ifft_input. apply me_write_same. }
      destruct F as (S1 & K1 & C1 & V1). cbv zeta.
      destruct (me_write P h1 (ifft_input h1) (junk (ticks h1)) S1 (s_ifft P h1 S1)) as [S2 K2].
      destruct (me_tick P _ S2) as [S3 K3].
      set (h2 := tick (write h1 (ifft_input h1) (junk (ticks h1)))) in *.
      set (v := if loc_eqb (ifft_input h1) Buffer then junk (ticks h2) else vift sh (content h1 (ifft_input h1))).
      destruct (me_write P h2 Buffer v S3 (s_buffer P h2 S3)) as [S4 K4].
      destruct (me_tick P _ S4) as [S5 K5].
      exists Buffer. eexists. split; [reflexivity|]. split.
      { split; [exact S5|]. split; [|simpl; rewrite C1; lia].
        eapply me_keeps_trans; [exact K1|]. eapply me_keeps_trans; [exact K2|]. eapply me_keeps_trans; [exact K3|].
        eapply me_keeps_trans; [exact K4 | exact K5]. }
      split.
      { change (content (tick (write h2 Buffer v)) Buffer) with (content (write h2 Buffer v) Buffer).
        rewrite me_write_same. subst v. rewrite (me_neq _ _ (s_ifft_out P h1 S1)), V1. reflexivity. }
      split; [exact (s_buffer P h S)|]. split; [exact I|]. split; [discriminate|]. split; [discriminate|]. intros D. discriminate D.
    - unfold bindm, get. destruct (me_new P h (vift sh (content h l)) S) as (h' & E' & L & K & C & V & N & F1 & F2 & K').
      rewrite E'. exists (New (created h)), h'. split; [reflexivity|]. split.
      { split; [eapply me_safe_weaken; [|exact (proj1 L)]; apply me_also_l|]. split; [exact K | lia]. }
      split; [exact V|]. split; [exact N|]. split; [simpl; lia|]. split; [discriminate|]. split; [discriminate|]. intros _. exact L.
  Qed.
End Transforms.
