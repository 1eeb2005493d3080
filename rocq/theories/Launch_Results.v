(** Beams that are made from the arguments of the user: results. *)
From Coq Require Import Reals List Arith ZArith Bool Lia Lra ZifyBool ZifyNat FunctionalExtensionality.
Require Import Verif.Base Verif.Num Verif.Grid_Model Verif.Grid_Spec Verif.Grid_Proofs Verif.Entry_Model.
Require Import Verif.CSum Verif.Field Verif.Fourier_Model Verif.Fourier_Spec Verif.Fourier_Proofs Verif.Vec_Model Verif.Modes_Model Verif.Modes_Proofs Verif.Array_Model.
Require Import Verif.Whole_Spec Verif.Whole_Proofs Verif.Beam_Model Verif.Beam_Spec Verif.Beam_Proofs Verif.Beam_Media Verif.Beam_Slices Verif.Beam_Vector Verif.Launch_Model Verif.Launch_Spec Verif.Launch_Proofs Verif.Cplx.
Import ListNotations.
Local Open Scope R_scope.
Ltac Zify.zify_post_hook ::= Z.div_mod_to_equations.

Lemma axis_asked g z a : (1 <= ndim RN g <= 3)%nat -> asked_axis g z a -> beam_axis (ndim RN g) z = a /\ (offset g <= a < 3)%nat.
Proof.
  intros N. unfold asked_axis, beam_axis, section_axis, offset. set (nd := ndim RN g) in *. assert (nd = 1 \/ nd = 2 \/ nd = 3)%nat as Cases by lia. clearbody nd.
  destruct z as [z|].
  - intros (i & Hi & -> & Hz). destruct Cases as [->|[->| ->]]; split; lia.
  - intros ->. destruct Cases as [->|[->| ->]]; split; lia.
Qed.
Lemma root_positive n : (0 < n)%R -> csqrt (RtoC (n * n)) = RtoC n.
Proof.
  intros H. apply (principal_unique (RtoC (n * n))); [apply csqrt_principal|]. split; [symmetry; apply RtoC_mult|]. left. exact H.
Qed.
Lemma background_asked l n : asked_background l n -> background_n (l_index l) (l_permittivity l) = RtoC n.
Proof. intros [H E]. unfold background_n. destruct (l_index l); [exact E|]. rewrite E. apply root_positive, H. Qed.
Lemma k_asked l n k : (0 < n)%R -> asked_k l n k -> (vacuum_k (l_wavelength l) (l_wavenumber l) * RtoC n)%C = RtoC k.
Proof.
  intros N [H E]. unfold vacuum_k. destruct (l_wavelength l) as [x|].
  - destruct E as (w & -> & W & E). rewrite <- RtoC_div by lra. rewrite <- RtoC_mult. f_equal. apply (Rmult_eq_reg_r w); [|lra]. rewrite E. field. lra.
  - rewrite E, <- RtoC_mult. f_equal. field. lra.
Qed.

Lemma same_lengths {A B} (Q : A -> B -> Prop) l l' : Forall2 Q l l' -> length l = length l'.
Proof. intros H. induction H; cbn; congruence. Qed.
Lemma Forall2_nth {A B} (Q : A -> B -> Prop) l l' i x y : Forall2 Q l l' -> (i < length l')%nat -> Q (nth i l x) (nth i l' y).
Proof. intros H. revert i. induction H as [|u v l l' Hq _ IH]; intros [|i] L; cbn in *; try lia; [exact Hq|apply IH; lia]. Qed.
Lemma Forall2_impl {A B} (Q Q' : A -> B -> Prop) l l' : (forall x y, Q x y -> Q' x y) -> Forall2 Q l l' -> Forall2 Q' l l'.
Proof. intros H F. induction F; constructor; auto. Qed.
Section Launch.
  Variables (l : beam_args) (a : nat) (crd : nat -> list R) (nb k : R) (n : nat) (F : vfield).
  Let g := l_grid l.
  Hypotheses (P : plain g) (Crd : forall i, (i < ndim RN g)%nat -> coordinates g i = Ok (crd i)) (Ax : asked_axis g (l_axis l) a)
    (Bg : asked_background l nb) (Kk : asked_k l nb k) (Sp : asked_spectrum g a crd l n F).
  Notation s := (rshape (across g a)).
  Notation z := (crd (a - offset g)%nat).
  Notation d := (step_of g (a - offset g)%nat).
  Hypothesis Or : ordered_axis g a z.

  Lemma launched : (n = 1 \/ n = 3)%nat /\ exists G b F', launch l = Ok (G, (b, enter b (set_ft b F') (nth 0 z 0) d)) /\
    bgrid b = across g a /\ baxis b = a /\ bk b = RtoC k /\ bn b = RtoC nb /\ bcomp b = n /\
    Z.to_nat (shape RN G a) = Grid_Spec.points g (a - offset g) /\ at_ RN (step RN G) a = d /\
    (forall c q, (c < n)%nat -> inside s q -> F' c q = F c q) /\
    (forall f q, to_spectrum (across g a) (bfirst b) f q = amplitudes g a crd f q) /\
    (forall x f p, inside s p -> to_space (across g a) (bfirst b) (diffract (across g a) a k x f) p = diffracted g a crd k x f p) /\
    (forall c, (c < 3)%nat -> bfirst b c = place g a crd [0; 0; 0]%nat c).
  Proof.
    pose proof P as (RG0 & ND & Fl). destruct (axis_asked g (l_axis l) a ND Ax) as (Ea & O1 & O2).
    destruct (expanded g P) as (G & EG & RG & NG & MG & FG).
    destruct (sliced g P G a O2 RG NG) as (h & Eh & Rh & Nh & Mh & Fh); [intros c Hc; destruct (FG c Hc) as (A & B & D & _); auto|].
    pose proof (read_start g a crd h P Crd O2 O1 Rh Nh Mh Fh l n (vacuum_k (l_wavelength l) (l_wavenumber l) * RtoC nb)%C (RtoC nb) F Sp) as (N & F' & St & HF). split; [exact N|].
    unfold launch. fold g. rewrite EG. cbn [bind]. rewrite Ea, Eh. cbn [bind]. rewrite (background_asked l nb Bg), St. cbn [bind fst snd].
    set (b := section_setup h a _ _ _) in *. exists G, b, F'.
    assert (a - offset g < ndim RN g)%nat as Li by (unfold offset in *; lia).
    destruct (FG a O2) as (S1 & S2 & S3 & _ & S5 & S6). assert (shape3 g a = shape RN g (a - offset g)%nat) as E1 by (unfold shape3; destruct (Nat.ltb_spec a (offset g)); [lia|reflexivity]).
    assert (step3 g a = d) as E2 by (unfold step3; destruct (Nat.ltb_spec a (offset g)); [lia|reflexivity]). assert (center3 g a = center_of g (a - offset g)%nat) as E3 by (unfold center3; destruct (Nat.ltb_spec a (offset g)); [lia|reflexivity]).
    rewrite E1 in S1. rewrite E2 in S2. rewrite E3 in S3.
    assert (nth 0 z 0 = first RN G a) as Ez.
    { rewrite (grid_coord g crd P Crd) by (exact Li || (destruct RG0 as (_ & _ & R); specialize (R _ Li); unfold Grid_Spec.points; lia)). cbn [INR]. rewrite (first_from_center G), S1, S2, S3, S6.
      rewrite first_from_center. destruct (Fl _ Li) as (_ & -> & _). rn. ring. }
    assert (bgrid b = across g a) as Eb by apply (section_raster g a crd h Crd O2 O1 Nh Fh).
    refine (conj _ (conj Eb (conj eq_refl (conj _ (conj eq_refl (conj eq_refl (conj _ (conj S2 (conj HF (conj _ (conj _ _))))))))))).
    - unfold step_of in S2 at 1. rewrite S2, Ez. reflexivity.
    - apply (k_asked l nb k); [apply Bg|exact Kk].
    - rewrite S1. reflexivity.
    - intros f q. apply (section_spectrum g a crd h P Crd O2 O1 Rh Nh Fh).
    - intros x f p Hp. apply (section_space g a crd h P Crd O2 O1 Rh Nh Fh), Hp.
    - intros c Hc. change (bfirst b c) with (first RN h c). assert (inside s [0; 0; 0]%nat) as I.
      { pose proof (section_is_section g a crd h P Crd O2 O1 Rh Nh Fh) as (_ & _ & NE & _). unfold across in *. cbn [rshape map] in *. inversion NE as [|? ? A NE']; subst. inversion NE' as [|? ? A' NE'']; subst. inversion NE'' as [|? ? A'' _]; subst.
        repeat (constructor; [assumption|]). constructor. }
      rewrite <- (proj2 (section_position g a crd h P Crd O2 O1 Rh Nh Fh c [0; 0; 0]%nat Hc I)). replace (nth c [0; 0; 0]%nat 0%nat) with 0%nat by (destruct (lt_three c Hc) as [->|[->| ->]]; reflexivity). cbn [INR]. rewrite Rmult_0_r. symmetry. apply Rplus_0_r.
  Qed.

  Lemma all_single b : bgrid b = across g a -> (forall m, In m s -> m = 1%nat) -> extended b = false.
  Proof.
    intros E H. unfold extended, Beam_Model.bshape. rewrite E. destruct (existsb _ s) eqn:X; [|reflexivity]. apply existsb_exists in X as (m & I & L). rewrite (H m I) in L. discriminate.
  Qed.
  Lemma part_ext F' c q : n = 3%nat -> (c < 3)%nat -> inside s q -> (forall c q, (c < n)%nat -> inside s q -> F' c q = F c q) -> transverse_part (across g a) a k F' c q = transverse_part (across g a) a k F c q.
  Proof.
    intros N Hc Hq E. unfold transverse_part. rewrite (E c q) by (lia || exact Hq). f_equal. f_equal. f_equal. apply csum_ext. intros i Hi. rewrite (E i q) by (lia || exact Hq). reflexivity.
  Qed.
  (** In the background. *)
  Lemma background_result : lit s n (wave_part g a k n F) ->
    exists fs, beam_result l None = Ok fs /\ length fs = length z /\
      forall i c p, (i < length z)%nat -> (c < n)%nat -> inside s p -> nth i fs (fun _ _ => RtoC 0) c p = diffracted g a crd k (nth i z 0) (wave_part g a k n F c) p.
  Proof.
    intros V. destruct launched as (N & G & b & F' & L & E1 & E2 & E3 & E4 & E5 & E6 & E7 & HF & _ & Sp' & _).
    pose proof P as (RG0 & ND & Fl). destruct (axis_asked g (l_axis l) a ND Ax) as (_ & O1 & O2). assert (a - offset g < ndim RN g)%nat as Li by (unfold offset in *; lia).
    destruct Or as (_ & D & R0 & R1 & R2). unfold beam_result. rewrite L. cbn [bind fst snd]. rewrite E2, E6, E7.
    assert (length z = Grid_Spec.points g (a - offset g)) as Lz by (apply (grid_coords_length g crd P Crd), Li). setoid_rewrite Lz.
    assert (section_grid (bgrid b) (baxis b)) as SG.
    { rewrite E1, E2. destruct (expanded g P) as (G' & _ & RG & NG & MG & FG). destruct (sliced g P G' a O2 RG NG) as (h & _ & Rh & Nh & Mh & Fh); [intros c Hc; destruct (FG c Hc) as (A & B & X & _); auto|]. exact (section_is_section g a crd h P Crd O2 O1 Rh Nh Fh). }
    assert (bshape b = s) as Es by (unfold Beam_Model.bshape; rewrite E1; reflexivity).
    assert (forall i, (i < Grid_Spec.points g (a - offset g))%nat -> nth i z 0 = (nth 0 z 0 + INR i * d)%R) as Z.
    { intros i Hi. rewrite !(grid_coord g crd P Crd) by (exact Li || lia). cbn [INR]. rn. ring. }
    eexists. split; [reflexivity|]. unfold wave_part in *. destruct N as [N|N]; rewrite N in *; cbn [Nat.eqb] in *.
    - assert (Beam_Slices.seen b (F' 0%nat)) as S.
      { destruct V as [(c & q & Hc & Hq & H)|H]; [left|right; apply all_single; assumption]. rewrite Es. exists q. split; [exact Hq|]. assert (c = 0%nat) as -> by lia. rewrite HF by (lia || exact Hq). exact H. }
      pose proof (beam_background b k SG (proj1 Kk) E3 E5 F' (nth 0 z 0) d (Grid_Spec.points g (a - offset g)) D R0 R1 R2 S) as B. split.
      + etransitivity; [apply (same_lengths _ _ _ B)|apply seq_length].
      + intros i c p Hi Hc Hp. assert (c = 0%nat) as -> by lia. pose proof (Forall2_nth _ _ _ i (fun _ _ => RtoC 0) 0%nat B ltac:(rewrite seq_length; exact Hi)) as Bi. cbn beta in Bi. rewrite seq_nth in Bi by exact Hi. rewrite Nat.add_0_l in Bi.
        rewrite Es in Bi. etransitivity; [exact (Bi p Hp)|]. rewrite <- (Z i Hi), E1, E2. rewrite Sp' by exact Hp. unfold diffracted. f_equal. apply sum_over_ext. intros q Hq. rewrite HF by (lia || exact Hq). reflexivity.
    - assert (vseen b (transverse_part (bgrid b) (baxis b) k F')) as S.
      { rewrite E1, E2. destruct V as [(c & q & Hc & Hq & H)|H]; [left|right; apply all_single; assumption]. rewrite Es. exists c, q. split; [exact Hc|]. split; [exact Hq|]. rewrite part_ext by (assumption || reflexivity || (rewrite N; assumption)). exact H. }
      pose proof (vbeam_background b k SG (proj1 Kk) E3 E5 F' (nth 0 z 0) d (Grid_Spec.points g (a - offset g)) D R0 R1 R2 S) as B. split.
      + etransitivity; [apply (same_lengths _ _ _ B)|apply seq_length].
      + intros i c p Hi Hc Hp. pose proof (Forall2_nth _ _ _ i (fun _ _ => RtoC 0) 0%nat B ltac:(rewrite seq_length; exact Hi)) as Bi. cbn beta in Bi. rewrite seq_nth in Bi by exact Hi. rewrite Nat.add_0_l in Bi.
        rewrite Es in Bi. etransitivity; [exact (Bi c Hc p Hp)|]. rewrite <- (Z i Hi), E1, E2. rewrite Sp' by exact Hp. unfold diffracted. f_equal. apply sum_over_ext. intros q Hq. rewrite part_ext by (assumption || reflexivity || (rewrite N; assumption)). reflexivity.
  Qed.

  (** In a medium. *)
  Definition vag (X Y : vfield) : Prop := forall c q, (c < n)%nat -> inside s q -> X c q = Y c q.
  Lemma vag_sym X Y : vag X Y -> vag Y X.
  Proof. intros H c q Hc Hq. symmetry. apply H; assumption. Qed.
  Lemma diffracted_ext x X Y p : agree s X Y -> diffracted g a crd k x X p = diffracted g a crd k x Y p.
  Proof. intros E. unfold diffracted. f_equal. apply sum_over_ext. intros q Hq. rewrite E by exact Hq. reflexivity. Qed.
  Lemma amplitudes_ext X Y q : agree s X Y -> amplitudes g a crd X q = amplitudes g a crd Y q.
  Proof. intros E. unfold amplitudes. apply sum_over_ext. intros p Hp. rewrite E by exact Hp. reflexivity. Qed.
  Lemma wave_part_ext X Y : (n = 1 \/ n = 3)%nat -> vag X Y -> vag (wave_part g a k n X) (wave_part g a k n Y).
  Proof.
    intros N E c q Hc Hq. unfold wave_part. destruct N as [N|N]; rewrite N; cbn [Nat.eqb]; [apply E; assumption|].
    unfold transverse_part. rewrite (E c q) by assumption. f_equal. f_equal. f_equal. apply csum_ext. intros i Hi. rewrite (E i q) by (lia || exact Hq). reflexivity.
  Qed.
  Lemma layer_ext m X Y : (n = 1 \/ n = 3)%nat -> vag X Y -> vag (layer g a crd k nb d n m X) (layer g a crd k nb d n m Y).
  Proof.
    intros N E c q Hc Hq. unfold layer. f_equal. apply wave_part_ext; try assumption. intros c' q' Hc' Hq'. apply amplitudes_ext. intros p Hp. f_equal. apply diffracted_ext. intros u Hu. apply E; assumption.
  Qed.
  Lemma behind_ext ms : (n = 1 \/ n = 3)%nat -> forall X Y, vag X Y -> Forall2 vag (behind g a crd k nb d n ms X) (behind g a crd k nb d n ms Y).
  Proof. intros N. induction ms as [|m ms IH]; intros X Y E; [constructor|]. cbn [behind]. cbv zeta. constructor; [apply layer_ext; assumption|]. apply IH, layer_ext; assumption. Qed.
  Lemma lit_ext X Y : vag X Y -> lit s n X -> lit s n Y.
  Proof. intros E [(c & q & Hc & Hq & H)|H]; [left; exists c, q; rewrite <- (E c q Hc Hq); auto|right; exact H]. Qed.
  Lemma diffract_none x : diffract (across g a) a k 0 x = x.
  Proof. apply functional_extensionality. intros q. unfold diffract. rewrite Rmult_0_l, cis_0. ring. Qed.
  Section Layers.
    Variable fi : nat -> R.
    Hypotheses (H1 : forall f q, to_spectrum (across g a) fi f q = amplitudes g a crd f q)
      (H2 : forall x f p, inside s p -> to_space (across g a) fi (diffract (across g a) a k x f) p = diffracted g a crd k x f p).
    Lemma space_of f p : inside s p -> to_space (across g a) fi f p = diffracted g a crd k 0 f p.
    Proof. intros Hp. rewrite <- (diffract_none f) at 1. apply H2, Hp. Qed.
    Lemma transmit_layer t X q : transmit (across g a) fi t X q = amplitudes g a crd (fun p => diffracted g a crd k 0 X p * t p)%C q.
    Proof. unfold transmit. rewrite H1. apply amplitudes_ext. intros p Hp. rewrite space_of by exact Hp. reflexivity. Qed.
    Lemma scalar_spectra ms : n = 1%nat -> forall X, spectra (across g a) fi a k (RtoC nb) d (map Some ms) (X 0%nat) = map (fun Y => Y 0%nat) (behind g a crd k nb d n ms X).
    Proof.
      intros N. induction ms as [|m ms IH]; intros X; [reflexivity|]. cbn [behind map spectra]. cbv zeta.
      assert (through (across g a) fi a k (RtoC nb) d (Some m) (X 0%nat) = layer g a crd k nb d n m X 0%nat) as E.
      { apply functional_extensionality. intros q. unfold layer, wave_part. rewrite N. cbn [Nat.eqb through]. unfold split_step, diffract. rewrite transmit_layer. reflexivity. }
      rewrite E. f_equal. apply IH.
    Qed.
    Lemma vector_spectra_behind ms : n = 3%nat -> forall X, vector_spectra (across g a) fi a k (RtoC nb) d (map Some ms) X = behind g a crd k nb d n ms X.
    Proof.
      intros N. induction ms as [|m ms IH]; intros X; [reflexivity|]. cbn [behind map vector_spectra]. cbv zeta.
      assert (vector_through (across g a) fi a k (RtoC nb) d (Some m) X = layer g a crd k nb d n m X) as E.
      { apply functional_extensionality. intros c. apply functional_extensionality. intros q. unfold layer, wave_part. rewrite N. cbn [Nat.eqb vector_through]. unfold diffract. f_equal.
        replace (fun i => transmit (across g a) fi (transmittance k (RtoC nb) d m) (X i)) with (fun c => amplitudes g a crd (fun p => diffracted g a crd k 0 (X c) p * transmittance k (RtoC nb) d m p)%C); [reflexivity|].
        apply functional_extensionality. intros i. apply functional_extensionality. intros q'. symmetry. apply transmit_layer. }
      rewrite E. f_equal. apply IH.
    Qed.
  End Layers.
  Lemma medium_result ms : List.Forall (noticeable (across g a) (RtoC nb)) ms ->
    let F0 := fun c => diffract (across g a) a k (nth 0 z 0 - d) (wave_part g a k n F c) in
    let Fs := behind g a crd k nb d n (firstn (length z) ms) F0 in
    List.Forall (lit s n) (F0 :: Fs) ->
    exists fs, beam_result l (Some ms) = Ok fs /\ Forall2 (fun f X => forall c p, (c < n)%nat -> inside s p -> f c p = diffracted g a crd k 0 (X c) p) fs Fs.
  Proof.
    intros M F0 Fs V. destruct launched as (N & G & b & F' & L & E1 & E2 & E3 & E4 & E5 & E6 & E7 & HF & S1 & S2 & _).
    pose proof P as (RG0 & ND & Fl). destruct (axis_asked g (l_axis l) a ND Ax) as (_ & O1 & O2). assert (a - offset g < ndim RN g)%nat as Li by (unfold offset in *; lia).
    destruct Or as (_ & D & R0 & R1 & R2). unfold beam_result. rewrite L. cbn [bind fst snd]. rewrite E2, E6, E7.
    assert (length z = Grid_Spec.points g (a - offset g)) as Lz by (apply (grid_coords_length g crd P Crd), Li). rewrite <- Lz. set (msn := firstn (length z) ms) in *.
    assert (section_grid (bgrid b) (baxis b)) as SG.
    { rewrite E1, E2. destruct (expanded g P) as (G' & _ & RG & NG & MG & FG). destruct (sliced g P G' a O2 RG NG) as (h & _ & Rh & Nh & Mh & Fh); [intros c Hc; destruct (FG c Hc) as (A & B & X & _); auto|]. exact (section_is_section g a crd h P Crd O2 O1 Rh Nh Fh). }
    assert (bshape b = s) as Es by (unfold Beam_Model.bshape; rewrite E1; reflexivity).
    assert (List.Forall (noticed (bgrid b) (bn b)) (map Some msn)) as M'.
    { rewrite E1, E4. apply Forall_map. cbn [noticed]. unfold msn. rewrite <- (firstn_skipn (length z) ms) in M. apply Forall_app in M. apply M. }
    set (F0' := fun c => diffract (across g a) a k (nth 0 z 0 - d) (wave_part g a k n F' c)).
    assert (vag F0 F0') as A0. { intros c q Hc Hq. unfold F0, F0', diffract. f_equal. apply wave_part_ext; try assumption. intros c' q' Hc' Hq'. symmetry. apply HF; assumption. }
    pose proof (behind_ext msn N F0 F0' A0) as A. fold Fs in A. set (Fs' := behind g a crd k nb d n msn F0') in *.
    assert (List.Forall (lit s n) (F0' :: Fs')) as V'.
    { inversion V as [|? ? V0 V1]; subst. constructor; [apply (lit_ext F0); assumption|]. clear - A V1. induction A as [|X Y Xs Ys E A IH]; constructor; inversion V1; subst; [apply (lit_ext X); assumption|apply IH; assumption]. }
    eexists. split; [reflexivity|].
    assert (Forall2 (fun f X => forall c p, (c < n)%nat -> inside s p -> f c p = diffracted g a crd k 0 (X c) p) (fst (beam_field b (enter b (set_ft b F') (nth 0 z 0) d) d (map Some msn))) Fs') as B.
    { unfold Fs' in *. clear A0 A. destruct N as [N|N].
      - pose proof (beam_slices b k SG (proj1 Kk) E3 (eq_trans E5 N) F' (nth 0 z 0) d (map Some msn) D R0 R1 R2 M') as B. cbv zeta in B. rewrite E1, E2, E4 in B.
        set (X0 := fun c => diffract (across g a) a k (nth 0 z 0 - d) (F' c)) in *. assert (F0' = X0) as EX by (unfold F0', wave_part; rewrite N; reflexivity). rewrite EX in *. clearbody F0'. change (diffract (across g a) a k (nth 0 z 0 - d) (F' 0%nat)) with (X0 0%nat) in B.
        rewrite (scalar_spectra (bfirst b) S1 S2 msn N) in B.
        assert (List.Forall (Beam_Slices.seen b) (X0 0%nat :: map (fun Y => Y 0%nat) (behind g a crd k nb d n msn X0))) as V2.
        { change (X0 0%nat :: map (fun Y => Y 0%nat) (behind g a crd k nb d n msn X0)) with (map (fun Y : vfield => Y 0%nat) (X0 :: behind g a crd k nb d n msn X0)). apply Forall_map. eapply Forall_impl; [|exact V'].
          intros X [(c & q & Hc & Hq & H)|H]; [left|right; apply all_single; assumption]. rewrite Es. exists q. split; [exact Hq|]. assert (c = 0%nat) as -> by lia. exact H. }
        specialize (B V2). rewrite Es in B. clear - B S1 S2 N. remember (behind g a crd k nb d n msn X0) as Xs. clear HeqXs. revert B. generalize (fst (beam_field b (enter b (set_ft b F') (nth 0 z 0) d) d (map Some msn))). intros fs. revert fs.
        induction Xs as [|X Xs IH]; intros fs B; inversion B as [|f ? fs' ? Hf B']; subst; constructor; [|apply IH, B']. intros c p Hc Hp. assert (c = 0%nat) as -> by lia. rewrite (Hf p Hp). apply (space_of (bfirst b)); assumption.
      - pose proof (vbeam_slices b k SG (proj1 Kk) E3 (eq_trans E5 N) F' (nth 0 z 0) d (map Some msn) D R0 R1 R2 M') as B. cbv zeta in B. rewrite E1, E2, E4 in B.
        set (X0 := fun c => diffract (across g a) a k (nth 0 z 0 - d) (transverse_part (across g a) a k F' c)) in *. assert (F0' = X0) as EX by (unfold F0', wave_part; rewrite N; reflexivity). rewrite EX in *. clearbody F0'.
        rewrite (vector_spectra_behind (bfirst b) S1 S2 msn N) in B.
        assert (List.Forall (vseen b) (X0 :: behind g a crd k nb d n msn X0)) as V2.
        { eapply Forall_impl; [|exact V']. intros X [(c & q & Hc & Hq & H)|H]; [left|right; apply all_single; assumption]. rewrite Es. exists c, q. split; [lia|]. auto. }
        specialize (B V2). rewrite Es in B. eapply Forall2_impl; [|exact B]. intros f X Hf c p Hc Hp. rewrite (Hf c ltac:(lia) p Hp). apply (space_of (bfirst b)); assumption. }
    clear - A B. revert B. generalize (fst (beam_field b (enter b (set_ft b F') (nth 0 z 0) d) d (map Some msn))). intros fs. revert fs.
    induction A as [|X Y Xs Ys E A IH]; intros fs B; inversion B as [|f ? fs' ? Hf B']; subst; constructor; [|apply IH, B']. intros c p Hc Hp. rewrite (Hf c p Hc Hp). symmetry. apply diffracted_ext. intros q Hq. apply E; assumption.
  Qed.
End Launch.

(** The flags of the grid. *)
Lemma flags_same l fl oac cai media : beam_result (on_grid l (flagged (l_grid l) fl oac cai)) media = beam_result l media.
Proof. reflexivity. Qed.
Lemma coordinates_shifted g i fl x y : Grid_Spec.regular g -> (i < ndim RN g)%nat -> center_at_index RN g i = true -> Z.even (shape RN g i) = true ->
  coordinates g i = Ok x -> coordinates (flagged g fl (origin_at_center RN g) (fun _ => false)) i = Ok y -> y = map (fun u => u + step_of g i / 2)%R x.
Proof.
  intros Rg Hi Hc He Hx Hy. rewrite coordinates_range in Hx by assumption. rewrite coordinates_range in Hy by assumption. injection Hx as <-. injection Hy as <-.
  set (h := flagged _ _ _ _).
  assert (map (raw_coordinate RN h i) (seq 0 (Z.to_nat (shape RN h i))) = map (fun u => (u + step_of g i / 2)%R) (map (raw_coordinate RN g i) (seq 0 (Z.to_nat (shape RN g i))))) as E.
  { rewrite map_map. apply map_ext. intros j. unfold raw_coordinate, h, flagged, step_of. cbn [center step shape center_at_index]. rewrite Hc, He. reflexivity. }
  unfold axis_range. cbv zeta. change (origin_at_center RN h i) with (origin_at_center RN g i). destruct (origin_at_center RN g i); [exact E|].
  etransitivity; [apply f_equal; exact E|]. unfold ifftshift. rewrite map_app, <- skipn_map, <- firstn_map. f_equal; f_equal; rewrite map_length; reflexivity.
Qed.
Definition between : grid RN :=
  Build_grid RN 1 (fun _ => 2%Z) (Build_vec RN DFlt (fun _ => 1%R)) (Build_vec RN DFlt (fun _ => 0%R)) (fun _ => false) (fun _ => true) (fun _ => false) true false.
Definition centred : grid RN := flagged between (fun _ => false) (fun _ => true) (fun _ => true).
Definition unit_beam (g : grid RN) : beam_args :=
  {| l_grid := g; l_axis := None; l_wavenumber := RtoC PI; l_wavelength := None; l_permittivity := RtoC 1; l_index := None; l_field := Some (FArray (number (RtoC 1))); l_spectrum := None |}.
Lemma between_regular : Grid_Spec.regular between.
Proof. split; [reflexivity|]. split; [discriminate|]. intros i _. cbn. lia. Qed.
Lemma centred_plain : plain centred.
Proof. split; [apply between_regular|]. split; [cbn; lia|]. intros i _. split; [reflexivity|]. split; [reflexivity|]. intros _. unfold step_of. cbn. lra. Qed.
Lemma between_coordinates : coordinates between 0 = Ok [(- / 2)%R; (/ 2)%R].
Proof.
  rewrite coordinates_range by (apply between_regular || (cbn; lia)). f_equal. transitivity [raw_coordinate RN between 0 0; raw_coordinate RN between 0 1]; [reflexivity|].
  rewrite !raw_linear by (cbn; lia). unfold first, step_of. cbn [between center step shape center_at_index at_ negb andb]. change (2 / 2)%Z with 1%Z. rn. f_equal; [cbn; lra|]. f_equal. cbn; lra.
Qed.
Lemma centred_coordinates : coordinates centred 0 = Ok [(-1)%R; 0%R].
Proof.
  rewrite coordinates_range by (apply between_regular || (cbn; lia)). f_equal. transitivity [raw_coordinate RN centred 0 0; raw_coordinate RN centred 0 1]; [reflexivity|].
  rewrite !raw_linear by (cbn; lia). unfold first, step_of. cbn [centred flagged between center step shape center_at_index at_ negb andb]. change (2 / 2)%Z with 1%Z. rn. f_equal; [cbn; lra|]. f_equal. cbn; lra.
Qed.
Lemma across_line : rshape (across centred 2) = [1; 1; 1]%nat.
Proof. reflexivity. Qed.
Lemma line_spectrum crd : asked_spectrum centred 2 crd (unit_beam centred) 1 (fun _ q => amplitudes centred 2 crd (fun _ => RtoC 1) q).
Proof.
  cbn [asked_spectrum unit_beam l_spectrum l_field]. exists (fun _ _ => RtoC 1). split; [|reflexivity]. cbn [means_field]. split; [reflexivity|]. split; [left; reflexivity|]. split; [|reflexivity].
  split; [cbn; lia|]. cbn. repeat (constructor; [left; reflexivity|]). constructor.
Qed.
Lemma line_kvec c q : (c < 3)%nat -> inside [1; 1; 1]%nat q -> kvec (across centred 2) c q = 0%R.
Proof.
  intros Hc Hq. inversion Hq as [|? i ? ? A Hq']; subst. inversion Hq' as [|? j ? ? B Hq'']; subst. inversion Hq'' as [|? k ? ? C Hq3]; subst. inversion Hq3; subst.
  replace i with 0%nat by lia. replace j with 0%nat by lia. replace k with 0%nat by lia. unfold kvec, k_axis. rewrite across_line. destruct (lt_three c Hc) as [->|[->| ->]]; cbn [nth]; change (k_index 1 0) with 0%Z; unfold Rdiv; ring.
Qed.
Lemma line_phase crd q p : inside [1; 1; 1]%nat q -> phase centred 2 crd q p = 0%R.
Proof. intros Hq. unfold phase. rewrite rsum3. rewrite !line_kvec by (lia || exact Hq). ring. Qed.
Lemma line_amplitudes crd q : inside [1; 1; 1]%nat q -> amplitudes centred 2 crd (fun _ => RtoC 1) q = RtoC 1.
Proof. intros Hq. unfold amplitudes. rewrite across_line. cbn [sum_over csum]. rewrite line_phase by exact Hq. rewrite Ropp_0, cis_0. ring. Qed.
Lemma line_diffracted crd z F p : (forall q, inside [1; 1; 1]%nat q -> F q = RtoC 1) -> diffracted centred 2 crd PI z F p = cis (z * PI).
Proof.
  intros HF. assert (inside [1; 1; 1]%nat [0; 0; 0]%nat) as I by (repeat constructor). unfold diffracted. rewrite across_line. cbn [sum_over csum]. change (Fourier_Model.points [1; 1; 1]%nat) with 1%nat.
  rewrite line_phase by exact I. rewrite HF by exact I. assert (axial (across centred 2) 2 PI [0; 0; 0]%nat = PI) as ->.
  { unfold axial, kt2. rewrite rsum3. rewrite !line_kvec by (lia || exact I). cbn [Nat.eqb]. pose proof PI_RGT_0 as Pp. assert (0 < PI * PI)%R by (apply Rmult_lt_0_compat; exact Pp).
    replace (PI * PI - (0 * 0 + 0 * 0 + 0))%R with (PI * PI)%R by ring. rewrite Rmax_right by lra. apply sqrt_square. lra. }
  cbn [INR]. rewrite Rplus_0_l. field. intros E. apply RtoC_inj in E. lra.
Qed.
Lemma unit_background g : asked_background (unit_beam g) 1.
Proof. split; [lra|]. cbn. f_equal. ring. Qed.
Lemma unit_k g : asked_k (unit_beam g) 1 PI.
Proof. split; [apply PI_RGT_0|]. cbn. f_equal. field. Qed.
Lemma line_ordered z : z = [(-1)%R; 0%R] -> ordered_axis centred 2 z.
Proof.
  intros ->. split; [cbn; lia|]. unfold step_of. cbn. split; [lra|]. assert (forall x, (x <= -1 \/ 1 <= x)%R -> resolved x) as Rs.
  { intros x H. right. destruct H; [rewrite Rabs_left by lra|rewrite Rabs_right by lra]; lra. }
  split; [apply Rs; lra|]. split; apply Rs; lra.
Qed.
Lemma line_result : exists fs, beam_result (unit_beam centred) None = Ok fs /\ length fs = 2%nat /\ forall i, (i < 2)%nat -> nth i fs (fun _ _ => RtoC 0) 0%nat [0; 0; 0]%nat = cis (nth i [(-1)%R; 0%R] 0 * PI).
Proof.
  set (crd := fun _ : nat => [(-1)%R; 0%R]).
  destruct (background_result (unit_beam centred) 2 crd 1 PI 1 (fun _ q => amplitudes centred 2 crd (fun _ => RtoC 1) q)) as (fs & E & L & H).
  - exact centred_plain.
  - intros i Hi. change (ndim RN (l_grid (unit_beam centred))) with 1%nat in Hi. assert (i = 0%nat) as -> by lia. exact centred_coordinates.
  - reflexivity.
  - apply unit_background.
  - apply unit_k.
  - apply line_spectrum.
  - apply line_ordered. reflexivity.
  - right. intros m Hm. cbn in Hm. lia.
  - exists fs. split; [exact E|]. split; [exact L|]. intros i Hi. rewrite (H i 0%nat [0; 0; 0]%nat) by (lia || exact Hi || (repeat constructor)).
    unfold crd at 2. apply line_diffracted. intros q Hq. unfold wave_part. cbn [Nat.eqb]. apply line_amplitudes, Hq.
Qed.
Lemma flags_ignored :
  (forall l fl oac cai media, beam_result (on_grid l (flagged (l_grid l) fl oac cai)) media = beam_result l media) /\
  (forall g i, Grid_Spec.regular g -> (i < ndim RN g)%nat -> center_at_index RN g i = true -> Z.even (shape RN g i) = true -> forall fl x y,
    coordinates g i = Ok x -> coordinates (flagged g fl (origin_at_center RN g) (fun _ => false)) i = Ok y -> y = map (fun u => u + step_of g i / 2)%R x) /\
  exists l crd, let g := l_grid l in Grid_Spec.regular g /\ ndim RN g = 1%nat /\ coordinates g 0 = Ok crd /\ asked_background l 1 /\ asked_k l 1 PI /\
    l_field l = Some (FArray (number (RtoC 1))) /\ l_spectrum l = None /\
    exists fs, beam_result l None = Ok fs /\ length fs = length crd /\ length crd = 2%nat /\
      forall i, (i < 2)%nat -> nth i fs (fun _ _ => RtoC 0) 0%nat [0; 0; 0]%nat = cis ((nth i crd 0 - / 2) * PI)%R /\ nth i fs (fun _ _ => RtoC 0) 0%nat [0; 0; 0]%nat <> cis (nth i crd 0 * PI)%R.
Proof.
  split; [exact flags_same|]. split; [intros; eapply coordinates_shifted; eassumption|]. exists (unit_beam between), [(- / 2)%R; (/ 2)%R]. cbv zeta.
  split; [apply between_regular|]. split; [reflexivity|]. split; [exact between_coordinates|]. split; [apply unit_background|]. split; [apply unit_k|]. split; [reflexivity|]. split; [reflexivity|].
  destruct line_result as (fs & E & L & H). exists fs. split; [exact E|]. split; [exact L|]. split; [reflexivity|].
  assert (forall i, (i < 2)%nat -> nth i fs (fun _ _ => RtoC 0) 0%nat [0; 0; 0]%nat = cis ((nth i [(- / 2)%R; (/ 2)%R] 0 - / 2) * PI)%R) as E1.
  { intros i Hi. rewrite H by exact Hi. f_equal. f_equal. destruct i as [|[|]]; [cbn; lra|cbn; lra|lia]. }
  intros i Hi. split; [apply E1, Hi|]. rewrite E1 by exact Hi. intros X. destruct i as [|[|]]; [| |lia]; cbn [nth] in X.
  - replace ((- / 2 - / 2) * PI)%R with (- PI)%R in X by field. replace (- / 2 * PI)%R with (- (PI / 2))%R in X by field. unfold cis in X. injection X as X _. rewrite !cos_neg, cos_PI, cos_PI2 in X. lra.
  - replace ((/ 2 - / 2) * PI)%R with 0%R in X by ring. replace (/ 2 * PI)%R with (PI / 2)%R in X by field. unfold cis in X. injection X as X _. rewrite cos_0, cos_PI2 in X. lra.
Qed.
(** The other arguments. *)
Lemma same_arguments (l : beam_args) (media : option (list sfield)) (n w : C) :
  ((0 < fst n)%R \/ fst n = 0%R /\ (0 <= snd n)%R) ->
  beam_result (with_background l (n * n)%C None) media = beam_result (with_background l (l_permittivity l) (Some n)) media /\
  beam_result (with_wave l (RtoC (2 * PI) / w)%C None) media = beam_result (with_wave l (l_wavenumber l) (Some w)) media.
Proof.
  intros Hn. split; [|reflexivity]. unfold beam_result, launch, with_background. cbn [l_grid l_axis l_wavenumber l_wavelength l_permittivity l_index l_field l_spectrum background_n].
  assert (csqrt (n * n)%C = n) as ->; [|reflexivity]. apply (principal_unique (n * n)%C); [apply csqrt_principal|]. split; [reflexivity|exact Hn].
Qed.
Lemma refused_arguments (l : beam_args) (media : option (list sfield)) : plain (l_grid l) -> l_spectrum l = None ->
  match l_field l with None => True | Some (FArray _) => False | Some (FFunction n _) | Some (FVector n _) => n = 0%nat \/ (3 < n)%nat end ->
  (exists a, asked_axis (l_grid l) (l_axis l) a) -> beam_result l media = Err TypeError.
Proof.
  intros P S Fd (a & Ax). pose proof P as (Rcentred & ND & Fl). set (g := l_grid l) in *. destruct (axis_asked g (l_axis l) a ND Ax) as (Ea & O1 & O2).
  destruct (expanded g P) as (G & EG & RG & NG & MG & FG).
  destruct (sliced g P G a O2 RG NG) as (h & Eh & Rh & Nh & Mh & Fh); [intros c Hc; destruct (FG c Hc) as (A & B & D & _); auto|].
  unfold beam_result, launch. fold g. rewrite EG. cbn [bind]. rewrite Ea, Eh. cbn [bind]. unfold start. rewrite S.
  assert (exists xs, items h = Ok xs) as (xs & Ex). { eexists. apply Entry_Proofs.items_axes; assumption. }
  destruct (l_field l) as [[y|m f|m f]|]; [contradiction| | |reflexivity]; cbn [field_array]; unfold last_axes; rewrite Ex; cbn [bind]; replace ((1 <=? m) && (m <=? 3))%nat with false by lia; reflexivity.
Qed.
