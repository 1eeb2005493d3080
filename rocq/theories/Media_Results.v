(** Media that are given to Beam.field: results. *)
From Coq Require Import Reals List Arith ZArith Bool Lia Lra ZifyBool ZifyNat.
Require Import Verif.Base Verif.Num Verif.Grid_Model Verif.Grid_Spec Verif.Grid_Proofs Verif.Entry_Model Verif.Entry_Proofs.
Require Import Verif.CSum Verif.Field Verif.Fourier_Model Verif.Fourier_Spec Verif.Fourier_Proofs Verif.Vec_Model Verif.Modes_Model Verif.Modes_Proofs Verif.Array_Model Verif.Array_Spec.
Require Import Verif.Whole_Spec Verif.Whole_Proofs Verif.Beam_Model Verif.Beam_Spec Verif.Beam_Proofs Verif.Launch_Model Verif.Launch_Spec Verif.Launch_Proofs Verif.Launch_Results Verif.Media_Model Verif.Media_Spec Verif.Media_Proofs Verif.Cplx.
Import ListNotations.
Local Open Scope R_scope.

Lemma Rleb_true x y : Rleb x y = true <-> x <= y.
Proof. unfold Rleb. destruct (Rle_dec x y); split; intros; try discriminate; try assumption; try reflexivity; contradiction. Qed.
Section Media.
  Variables (l : beam_args) (a : nat) (crd : nat -> list R) (nb k : R) (n : nat) (F : vfield).
  Let g := l_grid l.
  Hypotheses (P : plain g) (Crd : forall i, (i < ndim RN g)%nat -> coordinates g i = Ok (crd i)) (Ax : asked_axis g (l_axis l) a)
    (Bg : asked_background l nb) (Kk : asked_k l nb k) (Sp : asked_spectrum g a crd l n F).
  Notation s := (rshape (across g a)).
  Notation z := (crd (a - offset g)%nat).
  Notation d := (step_of g (a - offset g)%nat).

  Lemma section_of G b r : launch l = Ok (G, (b, r)) -> baxis b = a /\ (offset g <= a < 3)%nat /\ Z.to_nat (shape RN G a) = length z /\
    exists h, slice G a = Ok h /\ exists xs, items h = Ok xs /\ forall p, inside s p -> map (fun c => at_index c p) xs = map (place g a crd p) [0; 1; 2]%nat.
  Proof.
    intros L. pose proof P as (RG0 & ND & Fl). destruct (axis_asked g (l_axis l) a ND Ax) as (Ea & O1 & O2).
    destruct (expanded g P) as (G' & EG & RG & NG & MG & FG).
    destruct (sliced g P G' a O2 RG NG) as (h & Eh & Rh & Nh & Mh & Fh); [intros c Hc; destruct (FG c Hc) as (A & B & D & _); auto|].
    unfold launch in L. fold g in L. rewrite EG in L. cbn [bind] in L. rewrite Ea, Eh in L. cbn [bind] in L.
    destruct (start h a _ _ _ _) as [[b' r']|] eqn:St; [|discriminate L]. cbn [bind fst snd] in L. assert (G' = G /\ b' = b) as [<- <-] by (inversion L; auto).
    assert (baxis b' = a) as Eb.
    { unfold start in St. destruct (l_spectrum l) as [x|]; [|destruct (l_field l) as [x|]; [|discriminate St]].
      - destruct (values _ _) as [nf|]; [|discriminate St]. cbn [bind] in St. inversion St. reflexivity.
      - destruct (field_array _ _ _) as [y|]; [|discriminate St]. cbn [bind] in St. destruct (values _ _) as [nf|]; [|discriminate St]. cbn [bind] in St. inversion St. reflexivity. }
    assert (a - offset g < ndim RN g)%nat as Li by (unfold offset in *; lia).
    refine (conj Eb (conj (conj O1 O2) (conj _ _))).
    - destruct (FG a O2) as (S1 & _). rewrite S1, (grid_coords_length g crd P Crd) by exact Li. unfold shape3. destruct (Nat.ltb_spec a (offset g)); [lia|]. reflexivity.
    - exists h. split; [exact Eh|]. destruct (read_coords g a crd h P Crd O2 O1 Rh Nh Mh Fh 3) as (xs & E & X); [lia|]. unfold last_axes in E. destruct (items h) as [ys|] eqn:Ei; [|discriminate E]. cbn [bind] in E. cbn [Nat.leb andb] in E.
      exists ys. split; [reflexivity|]. assert (length ys = 3%nat) as Ly. { pose proof (section_items g a crd h Crd O2 O1 Rh Nh Mh Fh) as Si. rewrite Ei in Si. inversion Si. reflexivity. }
      rewrite Ly, Nat.sub_diag in E. cbn [skipn] in E. inversion E. subst xs. exact X.
  Qed.
  Hypothesis Or : ordered_axis g a z.

  Lemma noticeable_ext m m' : mag g a m' m -> noticeable (across g a) (RtoC nb) m -> noticeable (across g a) (RtoC nb) m'.
  Proof.
    intros E. pose proof P as (RG0 & ND & Fl). destruct (axis_asked g (l_axis l) a ND Ax) as (Ea & O1 & O2).
    destruct (expanded g P) as (G' & EG & RG & NG & MG & FG).
    destruct (sliced g P G' a O2 RG NG) as (h & Eh & Rh & Nh & Mh & Fh); [intros c Hc; destruct (FG c Hc) as (A & B & D & _); auto|].
    assert (inside s [0; 0; 0]%nat) as I.
    { pose proof (section_is_section g a crd h P Crd O2 O1 Rh Nh Fh) as (_ & _ & NE & _). unfold across in *. cbn [rshape map] in *. inversion NE as [|? ? A NE']; subst. inversion NE' as [|? ? A' NE'']; subst. inversion NE'' as [|? ? A'' _]; subst.
      repeat (constructor; [assumption|]). constructor. }
    unfold noticeable. rewrite (E _ I). intros [(p & Hp & H)|(H & H')]; [left; exists p; rewrite (E p Hp); auto|right]. split; [|exact H']. intros p Hp. rewrite (E p Hp). apply H, Hp.
  Qed.
  Lemma layer_media m m' X Y : (n = 1 \/ n = 3)%nat -> mag g a m' m -> vag l a n X Y -> vag l a n (layer g a crd k nb d n m' X) (layer g a crd k nb d n m Y).
  Proof.
    intros N M E c q Hc Hq. unfold layer. f_equal. apply (wave_part_ext l a crd k n Crd); try assumption. intros c' q' Hc' Hq'. apply (amplitudes_ext l a crd). intros p Hp. cbn beta. unfold transmittance. rewrite (M p Hp). f_equal. apply (diffracted_ext l a crd k). intros u Hu. apply E; assumption.
  Qed.
  Lemma behind_media ms' ms : (n = 1 \/ n = 3)%nat -> Forall2 (mag g a) ms' ms -> forall X Y, vag l a n X Y -> Forall2 (vag l a n) (behind g a crd k nb d n ms' X) (behind g a crd k nb d n ms Y).
  Proof. intros N M. induction M as [|m' m ms' ms E M IH]; intros X Y H; [constructor|]. cbn [behind]. cbv zeta. constructor; [apply layer_media; assumption|]. apply IH, layer_media; assumption. Qed.

  Lemma media_result p y ms : asked_media g a crd p y ms -> List.Forall (noticeable (across g a) (RtoC nb)) (firstn (length z) ms) ->
    let F0 := fun c => diffract (across g a) a k (nth 0 z 0 - d) (wave_part g a k n F c) in
    let Fs := behind g a crd k nb d n (firstn (length z) ms) F0 in
    List.Forall (lit s n) (F0 :: Fs) ->
    exists fs, beam_media l p y = Ok (fs ++ repeat (fun _ _ => RtoC 0) (length z - length ms)) /\
      Forall2 (fun f X => forall c p, (c < n)%nat -> inside s p -> f c p = diffracted g a crd k 0 (X c) p) fs Fs.
  Proof.
    intros M Nt F0 Fs V. destruct (launched l a crd nb k n F P Crd Ax Bg Kk Sp Or) as (N & G & b & F' & L & E1 & E2 & E3 & E4 & E5 & E6 & E7 & _).
    destruct (section_of G b _ L) as (_ & (O1 & O2) & Ln & h & Eh & Co).
    destruct (media_read g a crd h P Crd O2 O1 Co (length z) p y ms M) as (ps & ns & ms' & Ep & En & Em & Fm & Lm).
    assert (List.Forall (noticeable (across g a) (RtoC nb)) ms') as Nt'. { clear Em Lm. revert Fm Nt. generalize (firstn (length z) ms). intros ms0 Fm. induction Fm as [|x y' l1 l2 E Fm IH]; intros Nt; [constructor|]. constructor; [apply (noticeable_ext y'); [exact E|exact (Forall_inv Nt)]|exact (IH (Forall_inv_tail Nt))]. }
    pose proof (behind_media ms' (firstn (length z) ms) N Fm F0 F0 (fun c q _ _ => eq_refl)) as A. fold Fs in A.
    destruct (medium_result l a crd nb k n F P Crd Ax Bg Kk Sp Or ms' Nt') as (fs & Ef & Ff).
    { fold g. rewrite (firstn_all2 ms') by lia. change (List.Forall (lit s n) (F0 :: behind g a crd k nb d n ms' F0)). pose proof (Forall_inv_tail V) as V1. constructor; [exact (Forall_inv V)|].
      clear - A V1. induction A as [|X Y Xs Ys E A IH]; constructor; inversion V1; subst; [|apply IH; assumption]. apply (lit_ext l a n Y); [|assumption]. intros c q Hc Hq. symmetry. apply E; assumption. }
    fold g in Ff. rewrite (firstn_all2 ms') in Ff by lia.
    exists fs. split.
    - unfold beam_media. unfold beam_result in Ef. rewrite L in *. cbn [bind fst snd] in *. rewrite E2 in *. rewrite Eh. cbn [bind]. rewrite Ln in *. rewrite Ep, En. cbn [bind].
      assert (Beam_Model.bshape b = s) as -> by (unfold Beam_Model.bshape; rewrite E1; reflexivity). rewrite Em. cbn [bind]. rewrite (firstn_all2 ms') in Ef by lia. inversion Ef as [Ef']. rewrite beam_field_length, map_length.
      f_equal. f_equal. f_equal. rewrite (same_lengths _ _ _ Fm), firstn_length. lia.
    - change (Forall2 (fun f X => forall c p, (c < n)%nat -> inside s p -> f c p = diffracted g a crd k 0 (X c) p) fs (behind g a crd k nb d n ms' F0)) in Ff. clear - A Ff. revert fs Ff.
      induction A as [|X Y Xs Ys E A IH]; intros fs B; inversion B as [|f ? fs' ? Hf B']; subst; constructor; [|apply IH, B']. intros c q Hc Hq. rewrite (Hf c q Hc Hq). apply (diffracted_ext l a crd k). intros u Hu. apply E; assumption.
  Qed.

  (** Functions of another number of coordinates. *)
  Lemma functions_refused_index u f us : u <> 3%nat -> (0 < length z)%nat -> beam_media l None (Some (MSequence (SFunction u f :: us))) = Err TypeError.
  Proof.
    intros U Z. destruct (launched l a crd nb k n F P Crd Ax Bg Kk Sp Or) as (N & G & b & F' & L & E1 & E2 & _).
    destruct (section_of G b _ L) as (_ & (O1 & O2) & Ln & h & Eh & Co). unfold beam_media. rewrite L. cbn [bind fst snd]. rewrite E2, Eh. cbn [bind media_list parts]. rewrite Ln. destruct (length z); [lia|]. cbn [repeat map combine media_of slice_medium slice_array].
    destruct (Nat.eqb_spec u 3); [contradiction|]. reflexivity.
  Qed.
  Lemma functions_refused_permittivity u f us : u <> 3%nat -> (0 < length z)%nat -> beam_media l (Some (MSequence (SFunction u f :: us))) None = Err TypeError.
  Proof.
    intros U Z. destruct (launched l a crd nb k n F P Crd Ax Bg Kk Sp Or) as (N & G & b & F' & L & E1 & E2 & _).
    destruct (section_of G b _ L) as (_ & (O1 & O2) & Ln & h & Eh & Co). unfold beam_media. rewrite L. cbn [bind fst snd]. rewrite E2, Eh. cbn [bind media_list parts]. rewrite Ln. destruct (length z); [lia|]. cbn [repeat map combine media_of slice_medium slice_array].
    destruct (Nat.eqb_spec u 3); [contradiction|]. reflexivity.
  Qed.
  Lemma functions_refused u f us : u <> 3%nat -> (0 < length z)%nat ->
    beam_media l None (Some (MSequence (SFunction u f :: us))) = Err TypeError /\ beam_media l (Some (MSequence (SFunction u f :: us))) None = Err TypeError.
  Proof. intros U Z. split; [apply functions_refused_index|apply functions_refused_permittivity]; assumption. Qed.
  (** Arrays that vary along the propagation axis only, if this is the last of three. *)
  Lemma last_refused A ns : a = 2%nat -> ndim RN g = 3%nat -> layered_last g ns A -> (0 < Grid_Spec.points g 0)%nat -> (1 < Grid_Spec.points g 1)%nat ->
    (exists i, (i < length ns)%nat /\ / 100000000 + / 100000 * Cmod (nth 0 ns (RtoC 0)) < Cmod (nth i ns (RtoC 0) - nth 0 ns (RtoC 0))%C) -> beam_media l None (Some (MVolume A)) = Err ValueError.
  Proof.
    intros E2' N3 (Sh & Ln' & V) P0 P1 (i & Hi & Ci). destruct (launched l a crd nb k n F P Crd Ax Bg Kk Sp Or) as (N & G & b & F' & L & E1 & E2 & _).
    destruct (section_of G b _ L) as (_ & (O1 & O2) & Ln & h & Eh & Co). assert (0 < i)%nat as I0. { destruct i; [|lia]. exfalso. replace (nth 0 ns (RtoC 0) - nth 0 ns (RtoC 0))%C with (RtoC 0) in Ci by ring. rewrite Cmod_0 in Ci. pose proof (Cmod_ge_0 (nth 0 ns (RtoC 0))). lra. }
    assert (1 < Grid_Spec.points g 2)%nat as P2 by lia.
    unfold beam_media. rewrite L. cbn [bind fst snd]. rewrite E2, Eh. cbn [bind media_list parts]. rewrite Ln. rewrite Sh. cbn [map].
    assert (0 < length z)%nat as Z. { rewrite (grid_coords_length g crd P Crd) by (unfold offset in *; lia). subst a. unfold offset. rewrite N3. cbn [Nat.sub]. lia. }
    destruct (length z) as [|nz]; [lia|]. destruct (Grid_Spec.points g 0) as [|n0]; [lia|]. cbn [repeat seq map combine bind media_of slice_medium slice_array].
    assert (Beam_Model.bshape b = s) as -> by (unfold Beam_Model.bshape; rewrite E1; reflexivity).
    set (X := Arr [Grid_Spec.points g 1; Grid_Spec.points g 2] (fun p => aget A (0%nat :: p))).
    assert (index_field s X = Err ValueError) as ->; [|reflexivity]. unfold index_field.
    assert (fits_in (lpad (length s) (ashape X)) s = false) as ->.
    { change (length s) with 3%nat. change (lpad 3 (ashape X)) with [1; Grid_Spec.points g 1; Grid_Spec.points g 2]%nat. unfold across. cbn [rshape map]. subst a. unfold offset. rewrite N3. cbn [Nat.sub Nat.eqb Nat.ltb Nat.leb orb fits_in].
      destruct (Nat.eqb_spec (Grid_Spec.points g 2) 1); [lia|]. cbn. rewrite !andb_false_r. reflexivity. }
    rewrite andb_false_r. assert (same_values X = false) as ->; [|reflexivity]. unfold same_values. apply Bool.not_true_is_false. intros H. rewrite forallb_forall in H. specialize (H [0; i]%nat).
    assert (In [0; i]%nat (indices (ashape X))) as I. { apply indices_inside. constructor; [lia|]. constructor; [lia|constructor]. }
    specialize (H I). apply Rleb_true in H. unfold X in H. cbn [aget ashape map] in H. rewrite !V in H. cbn [nth] in H. lra.
  Qed.
End Media.

(** Layers along the first axis are taken for layers along the propagation axis, whichever it is. *)
Lemma layered_taken l ns A : layered_first (l_grid l) ns A ->
  beam_media l None (Some (MVolume A)) = beam_media l None (Some (numbers ns)) /\ beam_media l (Some (MVolume A)) None = beam_media l (Some (numbers ns)) None.
Proof.
  intros (Sh & Ln & V). unfold beam_media. destruct (launch l) as [r|]; [|split; reflexivity]. cbn [bind]. destruct r as (G & b & st). cbn [fst snd]. destruct (slice G (baxis b)) as [h|]; [|split; reflexivity]. cbn [bind media_list numbers parts]. rewrite Sh. cbn [map bind].
  set (N := Z.to_nat (shape RN G (baxis b))). set (gs := Beam_Model.bshape b).
  set (F := fun i => SArray (Arr [Grid_Spec.points (l_grid l) 1; Grid_Spec.points (l_grid l) 2] (fun p => aget A (i :: p)))).
  assert (forall f s (x : C), (forall p, f p = x) -> exists m, index_field gs (Arr s f) = Ok m /\ forall p, m p = x) as K.
  { intros f s x H. unfold index_field. destruct (_ && _)%bool; [eexists; split; [reflexivity|]; intros p; apply H|]. assert (same_values (Arr s f) = true) as ->.
    { unfold same_values. apply forallb_forall. intros q _. cbn [aget]. rewrite !H. apply Rleb_true. replace (x - x)%C with (RtoC 0) by ring. rewrite Cmod_0. pose proof (Cmod_ge_0 x). lra. }
    eexists; split; [reflexivity|]. intros p. apply H. }
  assert (length (map F (seq 0 (Grid_Spec.points (l_grid l) 0))) = length (map SNumber ns)) as LL by (rewrite !map_length, seq_length; symmetry; exact Ln).
  assert (forall i, (i < length ns)%nat -> slice_medium h gs None (Some (F i)) = slice_medium h gs None (Some (SNumber (nth i ns (RtoC 0)))) /\ slice_medium h gs (Some (F i)) None = slice_medium h gs (Some (SNumber (nth i ns (RtoC 0)))) None) as E.
  { intros i Hi. split; unfold slice_medium, F; cbn [slice_array bind].
    - destruct (K (fun p => aget A (i :: p)) [Grid_Spec.points (l_grid l) 1; Grid_Spec.points (l_grid l) 2] (nth i ns (RtoC 0))) as (m & -> & Hm); [intros p; rewrite V; reflexivity|].
      destruct (K (fun _ => nth i ns (RtoC 0)) [] (nth i ns (RtoC 0)) (fun _ => eq_refl)) as (m' & E' & Hm'). unfold number. rewrite E'. cbn [bind]. f_equal. f_equal. apply FunctionalExtensionality.functional_extensionality. intros p. rewrite Hm, Hm'. reflexivity.
    - unfold amap. cbn [ashape aget number]. destruct (K (fun p => csqrt (aget A (i :: p))) [Grid_Spec.points (l_grid l) 1; Grid_Spec.points (l_grid l) 2] (csqrt (nth i ns (RtoC 0)))) as (m & -> & Hm); [intros p; rewrite V; reflexivity|].
      destruct (K (fun _ => csqrt (nth i ns (RtoC 0))) [] _ (fun _ => eq_refl)) as (m' & E' & Hm'). rewrite E'. cbn [bind]. f_equal. f_equal. apply FunctionalExtensionality.functional_extensionality. intros p. rewrite Hm, Hm'. reflexivity. }
  assert (map F (seq 0 (Grid_Spec.points (l_grid l) 0)) = map F (seq 0 (length ns)) /\ map SNumber ns = map (fun i => SNumber (nth i ns (RtoC 0))) (seq 0 (length ns))) as [E1 E2].
  { split; [rewrite Ln; reflexivity|]. clear. induction ns as [|x ns IH]; [reflexivity|]. cbn [length seq map nth]. f_equal. rewrite <- seq_shift, map_map. exact IH. }
  change (map (fun i => SArray (Arr [Grid_Spec.points (l_grid l) 1; Grid_Spec.points (l_grid l) 2] (fun p => aget A (i :: p)))) (seq 0 (Grid_Spec.points (l_grid l) 0))) with (map F (seq 0 (Grid_Spec.points (l_grid l) 0))). rewrite E1, E2.
  assert (forall is j n0, (forall i, In i is -> (i < length ns)%nat) -> media_of h gs N j (map (fun x => (None, Some x)) (firstn n0 (map F is))) = media_of h gs N j (map (fun x => (None, Some x)) (firstn n0 (map (fun i => SNumber (nth i ns (RtoC 0))) is)))) as M1.
  { induction is as [|i is IH]; intros j n0 H; [reflexivity|]. destruct n0; [reflexivity|]. cbn [map firstn media_of]. rewrite (proj1 (E i (H i (or_introl eq_refl)))). destruct (slice_medium _ _ _ _); [|reflexivity]. cbn [bind]. destruct (_ <=? _)%nat; [reflexivity|]. rewrite (IH (Datatypes.S j) n0); [reflexivity|]. intros i' Hi'. apply H. right; exact Hi'. }
  assert (forall is j n0, (forall i, In i is -> (i < length ns)%nat) -> media_of h gs N j (map (fun x => (Some x, None)) (firstn n0 (map F is))) = media_of h gs N j (map (fun x => (Some x, None)) (firstn n0 (map (fun i => SNumber (nth i ns (RtoC 0))) is)))) as M2.
  { induction is as [|i is IH]; intros j n0 H; [reflexivity|]. destruct n0; [reflexivity|]. cbn [map firstn media_of]. rewrite (proj2 (E i (H i (or_introl eq_refl)))). destruct (slice_medium _ _ _ _); [|reflexivity]. cbn [bind]. destruct (_ <=? _)%nat; [reflexivity|]. rewrite (IH (Datatypes.S j) n0); [reflexivity|]. intros i' Hi'. apply H. right; exact Hi'. }
  rewrite !combine_none, !combine_none'. rewrite M1, M2 by (intros i Hi; apply in_seq in Hi; lia). split; reflexivity.
Qed.
