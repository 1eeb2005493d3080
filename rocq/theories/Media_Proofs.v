(** Media that are given to Beam.field: proofs. *)
From Coq Require Import Reals List Arith ZArith Bool Lia Lra ZifyBool ZifyNat.
Require Import Verif.Base Verif.Num Verif.Grid_Model Verif.Grid_Spec Verif.Grid_Proofs Verif.Entry_Model Verif.Entry_Proofs.
Require Import Verif.CSum Verif.Field Verif.Fourier_Model Verif.Fourier_Spec Verif.Fourier_Proofs Verif.Vec_Model Verif.Modes_Model Verif.Modes_Proofs Verif.Array_Model Verif.Array_Spec Verif.Array_Glue.
Require Import Verif.Whole_Spec Verif.Whole_Proofs Verif.Beam_Model Verif.Beam_Spec Verif.Beam_Proofs Verif.Launch_Model Verif.Launch_Spec Verif.Launch_Proofs Verif.Launch_Results Verif.Media_Model Verif.Media_Spec Verif.Cplx.
Import ListNotations.
Local Open Scope R_scope.
Ltac Zify.zify_post_hook ::= Z.div_mod_to_equations.

Lemma combine_none {A B} n (l : list B) : combine (repeat (@None A) n) (map Some l) = map (fun x => (None, Some x)) (firstn n l).
Proof. revert l. induction n as [|n IH]; intros [|x l]; try reflexivity. cbn. f_equal. apply IH. Qed.
Lemma combine_none' {A B} n (l : list B) : combine (map Some l) (repeat (@None A) n) = map (fun x => (Some x, None)) (firstn n l).
Proof. revert l. induction n as [|n IH]; intros [|x l]; try reflexivity. cbn. f_equal. apply IH. Qed.
Lemma Forall2_firstn {A B} (Q : A -> B -> Prop) n l l' : Forall2 Q l l' -> Forall2 Q (firstn n l) (firstn n l').
Proof. intros H. revert n. induction H; intros [|n]; cbn; constructor; auto. Qed.
Lemma Forall_firstn {A} (Q : A -> Prop) n l : List.Forall Q l -> List.Forall Q (firstn n l).
Proof. intros H. revert n. induction H; intros [|n]; cbn; constructor; auto. Qed.

Lemma beam_field_length b d ms : forall s, length (fst (beam_field b s d ms)) = length ms.
Proof. induction ms as [|m ms IH]; intros s; [reflexivity|]. cbn [beam_field fst length]. cbv zeta. cbn [fst length]. f_equal. apply IH. Qed.
Section Read.
  Variables (g : grid RN) (a : nat) (crd : nat -> list R) (h : grid RN).
  Hypotheses (P : plain g) (Crd : forall i, (i < ndim RN g)%nat -> coordinates g i = Ok (crd i)) (A3 : (a < 3)%nat) (Ao : (offset g <= a)%nat).
  Notation s := (rshape (across g a)).
  Hypothesis Coords : exists xs, items h = Ok xs /\ forall p, inside s p -> map (fun c => at_index c p) xs = map (place g a crd p) [0; 1; 2]%nat.

  Lemma number_broadcasts x : Array_Spec.broadcasts (number x) s.
  Proof. split; [cbn; lia|]. cbn. repeat (constructor; [right; reflexivity|]). constructor. Qed.
  Lemma slice_read x m : means_slice g a crd x m -> exists y, slice_array h s x = Ok y /\ Array_Spec.broadcasts y s /\ forall p, inside s p -> bget y p = m p.
  Proof.
    destruct x as [c|y|n f]; cbn [means_slice slice_array].
    - intros E. exists (number c). split; [reflexivity|]. split; [apply number_broadcasts|]. intros p Hp. rewrite E by exact Hp. reflexivity.
    - intros (B & E). exists y. split; [reflexivity|]. split; [exact B|]. intros p Hp. symmetry. apply E, Hp.
    - intros (-> & E). destruct Coords as (xs & -> & X). cbn [Nat.eqb bind]. eexists. split; [reflexivity|].
      split; [split; [cbn; lia|]; apply same_spatial|]. intros p Hp. pose proof (Entry_Proofs.inside_length s p Hp) as L. unfold bget, adim. cbn [ashape aget]. rewrite L, Nat.sub_diag. cbn [skipn]. rewrite Array_Assign.inside_clip by exact Hp. rewrite X by exact Hp. symmetry. apply E, Hp.
  Qed.
  Lemma index_read y : Array_Spec.broadcasts y s -> index_field s y = Ok (fun p => bget y p).
  Proof.
    intros [L B]. unfold index_field. destruct (Nat.leb_spec (adim y) (length s)); [|lia]. rewrite (spatial_fits s _ B). reflexivity.
  Qed.
  Definition mag (X Y : sfield) : Prop := forall p, inside s p -> X p = Y p.
  Lemma index_medium x m : means_slice g a crd x m -> exists m', slice_medium h s None (Some x) = Ok (Some m') /\ mag m' m.
  Proof.
    intros M. destruct (slice_read x m M) as (y & Ey & B & E). cbn [slice_medium]. rewrite Ey. cbn [bind]. rewrite (index_read y B). cbn [bind]. eexists. split; [reflexivity|]. exact E.
  Qed.
  Lemma permittivity_medium x e m : means_slice g a crd x e -> (forall p, inside s p -> principal_root (e p) (m p)) -> exists m', slice_medium h s (Some x) None = Ok (Some m') /\ mag m' m.
  Proof.
    intros M Rt. destruct (slice_read x e M) as (y & Ey & B & E). cbn [slice_medium]. rewrite Ey. cbn [bind]. assert (Array_Spec.broadcasts (amap csqrt y) s) as B' by exact B. rewrite (index_read _ B'). cbn [bind]. eexists. split; [reflexivity|].
    intros p Hp. change (bget (amap csqrt y) p) with (csqrt (bget y p)). rewrite E by exact Hp. apply (principal_unique (e p)); [apply csqrt_principal|apply Rt, Hp].
  Qed.
  Lemma volume_parts A ms : means_media g a crd (MVolume A) ms -> exists l, parts (MVolume A) = Ok l /\ Forall2 (means_slice g a crd) l ms.
  Proof.
    intros (Ea & Sh & L & E). pose proof P as (RG & ND & _). cbn [parts]. rewrite Sh. remember (ndim RN g) as nd eqn:Nd. destruct nd as [|nd]; [lia|]. cbn [seq map]. eexists. split; [reflexivity|]. rewrite <- L.
    assert (forall i, (i < length ms)%nat -> means_slice g a crd (SArray (Arr (map (Grid_Spec.points g) (seq 1 nd)) (fun p => aget A (i :: p)))) (nth i ms (fun _ => 0%C))) as H.
    { intros i Hi. assert (forall p, inside s p -> bget (Arr (map (Grid_Spec.points g) (seq 1 nd)) (fun p => aget A (i :: p))) p = aget A (i :: skipn (Datatypes.S a) p) /\ length p = 3%nat) as G.
      { intros p Hp. pose proof (Entry_Proofs.inside_length s p Hp) as Lp. split; [|exact Lp]. change (length s) with 3%nat in Lp. unfold bget, adim. cbn [ashape aget]. rewrite map_length, seq_length, Lp.
        assert (3 - nd = Datatypes.S a)%nat as -> by (unfold offset in *; lia). f_equal. f_equal. apply Array_Assign.inside_clip.
        destruct p as [|p0 [|p1 [|p2 [|]]]]; try discriminate Lp. unfold across in Hp. cbn [rshape map] in Hp. inversion Hp as [|? ? ? ? H0 Hp']; subst. inversion Hp' as [|? ? ? ? H1 Hp'']; subst. inversion Hp'' as [|? ? ? ? H2 _]; subst.
        unfold offset in *. rewrite <- Nd in *. destruct nd as [|[|[|]]]; try lia; cbn [Nat.sub Nat.eqb Nat.ltb Nat.leb orb skipn seq map] in *; repeat (constructor; [assumption|]); constructor. }
      cbn [means_slice]. split; [|intros p Hp; rewrite (proj1 (G p Hp)); apply E; assumption].
      split; [unfold adim; cbn [ashape]; rewrite map_length, seq_length; cbn; lia|]. cbn [ashape]. change (length s) with 3%nat. unfold lpad. rewrite map_length, seq_length. unfold across, offset in *. rewrite <- Nd in *. subst a. cbn [rshape map].
      destruct nd as [|[|[|]]]; try lia; cbn [Nat.sub Nat.eqb Nat.ltb Nat.leb orb seq map repeat app]; repeat (constructor; [first [left; reflexivity|right; reflexivity]|]); constructor. }
    clear - H. set (F := fun i => SArray (Arr (map (Grid_Spec.points g) (seq 1 nd)) (fun p => aget A (i :: p)))) in *. change (forall i, (i < length ms)%nat -> means_slice g a crd (F i) (nth i ms (fun _ => 0%C))) in H.
    change (Forall2 (means_slice g a crd) (map F (seq 0 (length ms))) ms). clearbody F. revert F H. induction ms as [|m ms IH]; intros F H; [constructor|]. cbn [length seq map]. constructor; [apply (H 0%nat); cbn; lia|].
    rewrite <- seq_shift, map_map. apply IH. intros i Hi. apply (H (Datatypes.S i)). cbn. lia.
  Qed.
  Lemma media_parts x ms : means_media g a crd x ms -> exists l, parts x = Ok l /\ Forall2 (means_slice g a crd) l ms.
  Proof. destruct x as [l|A]; [intros H; exists l; auto|apply volume_parts]. Qed.
  Lemma media_read n p y ms : asked_media g a crd p y ms -> exists ps ns ms', media_list n p = Ok ps /\ media_list n y = Ok ns /\ media_of h s n 0 (combine ps ns) = Ok (map Some ms') /\ Forall2 mag ms' (firstn n ms) /\ (length ms' <= n)%nat.
  Proof.
    assert (forall (l : list (option slice_arg * option slice_arg)) ms, Forall2 (fun x m => exists m', slice_medium h s (fst x) (snd x) = Ok (Some m') /\ mag m' m) l ms -> forall i, (length l + i <= n)%nat -> exists ms', media_of h s n i l = Ok (map Some ms') /\ Forall2 mag ms' ms) as Loop.
    { intros l ms' F. induction F as [|[u v] m l ms' (m' & E & M) F IH]; intros i Hi; [exists []; split; [reflexivity|constructor]|]. cbn [media_of]. cbn [fst snd] in E. rewrite E. cbn [bind]. cbn [length] in Hi. destruct (Nat.leb_spec n i); [lia|].
      destruct (IH (Datatypes.S i)) as (r & Er & Fr); [lia|]. rewrite Er. exists (m' :: r). split; [reflexivity|]. constructor; assumption. }
    destruct p as [x|], y as [y|]; cbn [asked_media]; try contradiction.
    - intros (es & M & Rt). destruct (media_parts x es M) as (l & El & Fl). cbn [media_list]. rewrite El. cbn [bind]. do 2 eexists. rewrite combine_none'.
      destruct (Loop (map (fun x => (Some x, None)) (firstn n l)) (firstn n ms)) with (i := 0%nat) as (ms' & Em & Fm).
      + assert (Forall2 (fun x m => exists m', slice_medium h s (Some x) None = Ok (Some m') /\ mag m' m) (firstn n l) (firstn n ms)) as Q.
        { apply Forall2_firstn. clear M El. revert ms Rt. induction Fl as [|x' e l es He Fl IH]; intros ms Rt; inversion Rt; subst; constructor; [eapply permittivity_medium; eassumption|apply IH; assumption]. }
        clear - Q. induction Q; cbn; constructor; assumption.
      + rewrite map_length, firstn_length. lia.
      + exists ms'. refine (conj eq_refl (conj eq_refl (conj Em (conj Fm _)))). rewrite (same_lengths _ _ _ Fm), firstn_length. lia.
    - intros M. destruct (media_parts y ms M) as (l & El & Fl). cbn [media_list]. rewrite El. cbn [bind]. do 2 eexists. rewrite combine_none.
      destruct (Loop (map (fun x => (None, Some x)) (firstn n l)) (firstn n ms)) with (i := 0%nat) as (ms' & Em & Fm).
      + assert (Forall2 (fun x m => exists m', slice_medium h s None (Some x) = Ok (Some m') /\ mag m' m) (firstn n l) (firstn n ms)) as Q.
        { apply Forall2_firstn. clear M El. induction Fl; constructor; [apply index_medium; assumption|assumption]. }
        clear - Q. induction Q; cbn; constructor; assumption.
      + rewrite map_length, firstn_length. lia.
      + exists ms'. refine (conj eq_refl (conj eq_refl (conj Em (conj Fm _)))). rewrite (same_lengths _ _ _ Fm), firstn_length. lia.
  Qed.
End Read.
