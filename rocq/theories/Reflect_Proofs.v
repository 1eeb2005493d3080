(** Proofs for mirror images of beams: C187. *)
From Coq Require Import Reals List Arith Bool ZArith Lia Lra FunctionalExtensionality.
Require Import Verif.Base Verif.CSum Verif.Field Verif.Fourier_Model Verif.Fourier_Spec Verif.Fourier_Proofs Verif.Vec_Model Verif.Modes_Model Verif.Modes_Proofs.
Require Import Verif.Vec_Proofs Verif.Symmetry_Reciprocity Verif.Symmetry_Spec Verif.Symmetry_Mirror Verif.Maxwell_Mirror.
Require Import Verif.Beam_Model Verif.Beam_Spec Verif.Beam_Proofs Verif.Beam_Media Verif.Displace_Proofs Verif.Reflect_Spec Verif.Cplx.
Import ListNotations.
Local Open Scope R_scope.
Local Open Scope C_scope.

Section Reflect.
  Variables (b : setup) (m : nat).
  Notation sh := (bshape b).
  Notation v := (1 <? bcomp b)%nat.
  Notation opp := (opposite m (bshape b)).
  Notation sg := (mirror_sign v m).
  Hypothesis (G : section_grid (bgrid b) (baxis b)) (M : m <> baxis b) (Cp : (bcomp b <= 3)%nat) (Od : v = true -> Nat.odd (nth m sh 1%nat) = true).

  Lemma opp_in p : inside sh p -> inside sh (opp p).
  Proof. apply opposite_inside. Qed.
  Lemma opp_opp p : inside sh p -> opp (opp p) = p.
  Proof. apply opposite_twice. Qed.
  Lemma opp_origin : opp origin = origin.
  Proof.
    destruct G as (L & _ & N & _). unfold origin, bshape. destruct (rshape (bgrid b)) as [|n0 [|n1 [|n2 [|]]]]; try discriminate L.
    inversion N as [|? ? N0 N']; subst. inversion N' as [|? ? N1 N'']; subst. inversion N'' as [|? ? N2 _]; subst.
    destruct m as [|[|[|m']]]; cbn [opposite]; rewrite ?Nat.sub_0_r, ?Nat.mod_same by lia; reflexivity || (destruct m'; reflexivity).
  Qed.
  Lemma ft_opp f q : inside sh q -> ft sh (fun p => f (opp p)) q = ft sh f (opp q).
  Proof.
    intros Hq. unfold ft. rewrite <- (opposite_sum m sh (fun j => f j * cis (- phase sh j (opp q)))). apply sum_over_ext. intros j Hj. rewrite !cis_neg, opposite_phase by assumption. reflexivity.
  Qed.
  Lemma ift_opp F p : inside sh p -> ift sh (fun q => F (opp q)) p = ift sh F (opp p).
  Proof.
    intros Hp. unfold ift. rewrite <- (opposite_sum m sh (fun k => F k * cis (phase sh (opp p) k))). f_equal. apply sum_over_ext. intros k Hk. rewrite opposite_phase by assumption. reflexivity.
  Qed.
  Lemma kvec_opp c q : inside sh q -> kvec (bgrid b) c (opp q) = if (c =? m)%nat then k_axis (nth c (rshape (bgrid b)) 1%nat) (nth c (rstep (bgrid b)) 1%R) (neg1 (nth c (rshape (bgrid b)) 1%nat) (nth c q 0%nat)) else kvec (bgrid b) c q.
  Proof. exact (kvec_opposite (bgrid b) m q c). Qed.
  Lemma kt_sq c q : (c < 3)%nat -> inside sh q -> k_proj_t b c (opp q) * k_proj_t b c (opp q) = k_proj_t b c q * k_proj_t b c q.
  Proof.
    intros Hc Hq. unfold k_proj_t. destruct (c =? baxis b)%nat; [reflexivity|]. rewrite (kvec_opp c q Hq). destruct (Nat.eqb_spec c m) as [->|E]; [|reflexivity].
    unfold Cdiv. transitivity (RtoC (kvec (bgrid b) m q * kvec (bgrid b) m q) * (/ bk b * / bk b)); [|rewrite RtoC_mult; ring]. unfold kvec.
    rewrite <- k_axis_neg1_square by (apply inside_nth; [exact Hq|destruct G as (L & _); unfold bshape in *; lia]). rewrite RtoC_mult. ring.
  Qed.
  Lemma k_proj_axis q : inside sh q -> k_proj b (baxis b) (opp q) = k_proj b (baxis b) q.
  Proof. intros Hq. unfold k_proj. rewrite Nat.eqb_refl. do 4 f_equal. apply csum_ext. intros i Hi. apply kt_sq; assumption. Qed.
  Lemma sg_cases c : sg c = 1%R \/ sg c = (-1)%R.
  Proof. unfold mirror_sign. destruct (_ && _)%bool; auto. Qed.
  Lemma mod_sq c q : (c < 3)%nat -> inside sh q -> (Cmod (k_proj b c (opp q)) * Cmod (k_proj b c (opp q)) = Cmod (k_proj b c q) * Cmod (k_proj b c q))%R.
  Proof.
    intros Hc Hq. rewrite <- !Cmod_mult. f_equal. destruct (Nat.eq_dec c (baxis b)) as [->|E]; [rewrite k_proj_axis by exact Hq; reflexivity|].
    unfold k_proj. rewrite (proj2 (Nat.eqb_neq _ _) E). apply kt_sq; assumption.
  Qed.
  Lemma k_norm q : inside sh q -> rsum 3 (fun i => Cmod (k_proj b i (opp q)) * Cmod (k_proj b i (opp q)))%R = rsum 3 (fun i => Cmod (k_proj b i q) * Cmod (k_proj b i q))%R.
  Proof. intros Hq. apply rsum_ext. intros i Hi. apply mod_sq; assumption. Qed.
  Lemma k_dir_axis q : inside sh q -> k_dir b (baxis b) (opp q) = k_dir b (baxis b) q.
  Proof. intros Hq. unfold k_dir. rewrite k_proj_axis, k_norm by exact Hq. reflexivity. Qed.
  Lemma k_dir_opp c q : v = true -> (c < 3)%nat -> inside sh q -> k_dir b c (opp q) = RtoC (sg c) * k_dir b c q.
  Proof.
    intros V Hc Hq. destruct (Nat.eq_dec c (baxis b)) as [->|E].
    - rewrite k_dir_axis by exact Hq. unfold mirror_sign. rewrite (proj2 (Nat.eqb_neq (baxis b) m)) by congruence. rewrite andb_false_r. ring.
    - unfold k_dir. rewrite k_norm by exact Hq. unfold k_proj, k_proj_t. rewrite (proj2 (Nat.eqb_neq _ _) E). rewrite (kvec_opp c q Hq). unfold mirror_sign. rewrite V. cbn [andb].
      destruct (Nat.eqb_spec c m) as [->|N]; [|unfold Cdiv; ring].
      rewrite k_axis_neg1 by first [exact (Od V) | (apply inside_nth; [exact Hq|destruct G as (L & _); unfold bshape in *; lia])]. change (k_axis _ _ _) with (kvec (bgrid b) m q). rewrite RtoC_opp. unfold Cdiv.
      replace (RtoC (-1)) with (- RtoC 1) by (rewrite <- RtoC_opp; reflexivity). ring.
  Qed.
  Lemma propagator_opp d q : inside sh q -> propagator b d (opp q) = propagator b d q.
  Proof. intros Hq. unfold propagator. rewrite k_dir_axis by exact Hq. reflexivity. Qed.

  (** The spectra have phase factors for the distance between the mirror and the origin. *)
  Definition wph (q : list nat) : C := shift_ft b (opp q) * Cconj (shift_ft b q).
  Lemma shift_conj q : shift_ft b q * Cconj (shift_ft b q) = 1.
  Proof. unfold shift_ft. rewrite <- cis_neg, <- cis_plus. replace (_ + - _)%R with 0%R by ring. apply cis_0. Qed.
  Lemma wph_mod q : Cmod (wph q) = 1%R.
  Proof. unfold wph, shift_ft. rewrite <- cis_neg, Cmod_mult, !cis_mod. ring. Qed.
  Definition image (F : vfield) : vfield := fun c q => RtoC (sg c) * F c (opp q) * wph q.
  Definition images (s t : section) : Prop := vagree 3 sh (field_hat t) (image (field_hat s)) /\ pending t = pending s.

  Lemma settle_images s t : images s t -> images (settle b s) (settle b t).
  Proof.
    intros [F P]. unfold settle. rewrite P. destruct (tiny _); [split; assumption|]. split; [|reflexivity]. intros c q Hc Hq. cbn [field_hat]. rewrite (F c q Hc Hq). unfold image. cbn [field_hat]. rewrite propagator_opp by exact Hq. ring.
  Qed.
  Lemma read_images s t : images s t -> vagree 3 sh (read_ft b t) (image (read_ft b s)).
  Proof. intros S. exact (proj1 (settle_images s t S)). Qed.
  Lemma sg_mod c : Cmod (RtoC (sg c)) = 1%R.
  Proof. rewrite Cmod_R. destruct (sg_cases c) as [-> | ->]; [apply Rabs_R1|rewrite Rabs_left; lra]. Qed.
  Lemma image_mod F c q : Cmod (image F c q) = Cmod (F c (opp q)).
  Proof. unfold image. rewrite !Cmod_mult, sg_mod, wph_mod. ring. Qed.
  Lemma negligible_images F H : vagree 3 sh H (image F) -> negligible b H = negligible b F.
  Proof.
    intros E. apply eq_true_iff_eq. rewrite !(negligible_spec b). split; intros L c q Hc Hq.
    - specialize (L c (opp q) Hc (opp_in q Hq)). rewrite (E c _ ltac:(lia) (opp_in q Hq)), image_mod, opp_opp in L by exact Hq. exact L.
    - specialize (L c (opp q) Hc (opp_in q Hq)). rewrite (E c q ltac:(lia) Hq), image_mod. exact L.
  Qed.
  Lemma point_opp : extended b = false -> forall p, inside sh p -> opp p = p /\ wph p = 1.
  Proof.
    intros E p Hp. pose proof (point_shape b G E) as S. pose proof Hp as Hp'. rewrite S in Hp'. pose proof (point_index p Hp') as ->. assert (opp [0; 0; 0]%nat = [0; 0; 0]%nat) as O by exact opp_origin.
    split; [exact O|]. unfold wph. rewrite O. apply shift_conj.
  Qed.
  Lemma read_field_images s t : images s t -> vagree 3 sh (read_field b t) (mirrored v m sh (read_field b s)).
  Proof.
    intros S c p Hc Hp. pose proof (read_images s t S) as E. assert (forall z : C, (if (v && (c =? m))%bool then - z else z) = RtoC (sg c) * z) as Sg.
    { intros z. unfold mirror_sign. destruct (v && (c =? m))%bool; [|ring]. replace (RtoC (-1)) with (- RtoC 1) by (rewrite <- RtoC_opp; reflexivity). ring. }
    unfold mirrored. rewrite Sg. unfold read_field. rewrite (negligible_images _ _ E). destruct (extended b) eqn:X.
    - destruct (negligible b _); [ring|]. rewrite <- ift_opp by exact Hp. rewrite <- ift_scal. apply ift_ext. intros q Hq. rewrite (E c q Hc Hq). unfold image, wph.
      transitivity (RtoC (sg c) * (read_ft b s c (opp q) * shift_ft b (opp q)) * (shift_ft b q * Cconj (shift_ft b q))); [ring|rewrite shift_conj; ring].
    - rewrite (E c p Hc Hp). unfold image. destruct (point_opp X p Hp) as [-> ->]. ring.
  Qed.
  Lemma set_ft_images F H : vagree 3 sh H (image F) -> images (set_ft b F) (set_ft b H).
  Proof.
    intros E. split; [|reflexivity]. intros c q Hc Hq. cbn [set_ft field_hat]. unfold project, image. destruct (Bool.bool_dec v true) as [V|V]; [rewrite V|apply not_true_is_false in V; rewrite V, (E c q Hc Hq); unfold image; rewrite V; reflexivity].
    assert (forall i, RtoC (sg i) * RtoC (sg i) = 1) as Sq by (intros i; destruct (sg_cases i) as [-> | ->]; rewrite <- RtoC_mult; f_equal; ring). rewrite V in Sq.
    assert (forall i, (i < 3)%nat -> H i q = RtoC (mirror_sign true m i) * F i (opp q) * wph q) as E' by (intros i Hi; rewrite (E i q Hi Hq); unfold image; rewrite V; reflexivity).
    assert (forall i, (i < 3)%nat -> k_dir b i (opp q) = RtoC (mirror_sign true m i) * k_dir b i q) as D by (intros i Hi; rewrite k_dir_opp by assumption; rewrite V; reflexivity).
    rewrite (E' c Hc), (D c Hc).
    rewrite (csum_ext 3 (fun i => k_dir b i q * H i q) (fun i => wph q * (k_dir b i (opp q) * F i (opp q)))).
    - rewrite csum_scal. transitivity (RtoC (mirror_sign true m c) * F c (opp q) * wph q - RtoC (mirror_sign true m c) * RtoC (mirror_sign true m c) * k_dir b c q * (wph q * csum 3 (fun i => k_dir b i (opp q) * F i (opp q)))); [rewrite Sq; ring|ring].
    - intros i Hi. rewrite (E' i Hi), (D i Hi). ring.
  Qed.
  Lemma set_field_images f h : vagree 3 sh h (mirrored v m sh f) -> images (set_field b f) (set_field b h).
  Proof.
    intros E. assert (forall c p, (c < 3)%nat -> inside sh p -> h c p = RtoC (sg c) * f c (opp p)) as E'.
    { intros c p Hc Hp. rewrite (E c p Hc Hp). unfold mirrored, mirror_sign. destruct (v && (c =? m))%bool; [|ring]. replace (RtoC (-1)) with (- RtoC 1) by (rewrite <- RtoC_opp; reflexivity). ring. }
    unfold set_field. destruct (extended b) eqn:X; apply set_ft_images; intros c q Hc Hq.
    - rewrite (ft_ext sh (h c) (fun p => RtoC (sg c) * f c (opp p)) q) by (intros p Hp; apply E'; assumption). rewrite ft_scal, (ft_opp (f c)) by exact Hq. unfold image, wph.
      transitivity (RtoC (sg c) * ft sh (f c) (opp q) * Cconj (shift_ft b q) * 1); [ring|]. rewrite <- (shift_conj (opp q)). ring.
    - rewrite (E' c q Hc Hq). unfold image. destruct (point_opp X q Hq) as [-> ->]. ring.
  Qed.
  Lemma move_images s t d : images s t -> images (move s d) (move t d).
  Proof. intros [F P]. split; [exact F|]. cbn. rewrite P. reflexivity. Qed.
  Lemma origin_opp n n' : agree sh n' (mirrored_medium m sh n) -> n' origin = n origin.
  Proof. intros N. rewrite (N origin (origin_in b G)). unfold mirrored_medium. rewrite opp_origin. reflexivity. Qed.
  Lemma uniform_opp n n' : agree sh n' (mirrored_medium m sh n) -> uniform b n' = uniform b n.
  Proof.
    intros N. unfold uniform. rewrite (origin_opp n n' N). apply eq_true_iff_eq. rewrite !forallb_forall. split; intros H p Hp; apply indices_inside in Hp.
    - specialize (H (opp p) (proj2 (indices_inside _ _) (opp_in p Hp))). cbv beta in H. rewrite (N _ (opp_in p Hp)) in H. unfold mirrored_medium in H. rewrite opp_opp in H by exact Hp. exact H.
    - cbv beta. rewrite (N p Hp). exact (H (opp p) (proj2 (indices_inside _ _) (opp_in p Hp))).
  Qed.
  Lemma interact_images s t d n n' : agree sh n' (mirrored_medium m sh n) -> images s t -> images (interact b s d n) (interact b t d n').
  Proof.
    intros N S. unfold interact. rewrite (uniform_opp n n' N), (origin_opp n n' N). destruct (uniform b n).
    - destruct (tiny _); [exact S|]. destruct S as [F P]. split; [|exact P]. intros c q Hc Hq. cbn [field_hat]. rewrite (F c q Hc Hq). unfold image. cbn [field_hat]. ring.
    - apply set_field_images. intros c p Hc Hp. rewrite (read_field_images s t S c p Hc Hp), (N p Hp). unfold mirrored, mirrored_medium. destruct (_ && _)%bool; ring.
  Qed.
  Lemma act_images s t x y : mirror_image v m sh x y -> images s t -> images (act b s x) (act b t y).
  Proof.
    intros X S. destruct x as [d [n|]| | |F|f], y as [d' [n'|]| | |F'|f']; try contradiction; cbn [act].
    - destruct X as [-> N]. unfold propagate. assert (images (if Rltb d 0 then move s d else s) (if Rltb d 0 then move t d else t)) as S1 by (destruct (Rltb d 0); [apply move_images|]; exact S).
      pose proof (interact_images _ _ d n n' N S1) as S2. destruct (Rltb 0 d); [apply move_images|]; exact S2.
    - cbn in X. subst d'. unfold propagate. destruct (Rltb d 0), (Rltb 0 d); repeat apply move_images; exact S.
    - apply settle_images, S.
    - apply settle_images, S.
    - apply set_field_images, X.
  Qed.
  Lemma run_images l l' : Forall2 (mirror_image v m sh) l l' -> forall s t, images s t -> images (run b s l) (run b t l').
  Proof. intros H. induction H as [|x y l l' X H IH]; intros s t S; [exact S|]. unfold run in *. cbn [fold_left]. apply IH, act_images; assumption. Qed.
  Lemma run_mirrored f f' l l' s t : vagree 3 sh f' (mirrored v m sh f) -> Forall2 (mirror_image v m sh) l l' ->
    vagree 3 sh (read_field b (run b t (SetField f' :: l'))) (mirrored v m sh (read_field b (run b s (SetField f :: l)))).
  Proof. intros Hf H. apply read_field_images. unfold run. cbn [fold_left act]. apply run_images; [exact H|apply set_field_images, Hf]. Qed.
  Definition medium_image (n n' : option sfield) : Prop := mirror_image v m sh (Propagate 0 n) (Propagate 0 n').
  Lemma medium_propagate d n n' : medium_image n n' -> mirror_image v m sh (Propagate d n) (Propagate d n').
  Proof. unfold medium_image. destruct n, n'; cbn; tauto || (intros [_ H]; split; [reflexivity|exact H]) || auto. Qed.
  Lemma beam_mirrored step media media' : Forall2 medium_image media media' -> forall s t, images s t -> forall c p, (c < 3)%nat -> inside sh p ->
    map (fun f : vfield => f c p) (fst (beam_field b t step media')) = map (fun f : vfield => mirrored v m sh f c p) (fst (beam_field b s step media)).
  Proof.
    intros H. induction H as [|n n' media media' N H IH]; intros s t S c p Hc Hp; [reflexivity|]. cbn [map beam_field fst]. pose proof (act_images s t _ _ (medium_propagate step n n' N) S) as S1. cbn [act] in S1.
    rewrite (read_field_images _ _ S1 c p Hc Hp). f_equal. apply IH; [apply settle_images, S1|exact Hc|exact Hp].
  Qed.
End Reflect.

(** ** An even number of points *)
Definition couple : setup := {| bgrid := {| rshape := [1; 1; 2]%nat; rstep := [1%R; 0%R; PI] |}; bfirst := fun _ => 0%R; bk := RtoC 2; bn := RtoC 1; baxis := 0; bcomp := 3 |}.
Definition alternating (e : R) : vfield := fun c p => if (c =? 2)%nat then if idx_eqb p [0; 0; 1]%nat then RtoC (- e) else RtoC e else 0.
Lemma couple_grid : section_grid (bgrid couple) (baxis couple).
Proof. pose proof PI_RGT_0. repeat split; try (cbn; lia); try (repeat constructor; lia). intros c Hc H1. destruct c as [|[|[|]]]; cbn in *; lia || lra. Qed.
Lemma couple_kvec q : kvec (bgrid couple) 2 q = (if (nth 2 q 0 =? 0)%nat then 0 else IZR (k_index 2 (nth 2 q 0%nat)))%R.
Proof.
  pose proof PI_RGT_0. unfold kvec, k_axis. cbn [couple bgrid rshape rstep nth INR]. destruct (Nat.eqb_spec (nth 2 q 0%nat) 0) as [->|E]; [change (k_index 2 0) with 0%Z|]; field; lra.
Qed.
Lemma couple_dir : k_dir couple 0 [0; 0; 1]%nat = RtoC (sqrt 3 / 2) /\ k_dir couple 2 [0; 0; 1]%nat = RtoC (- / 2).
Proof.
  pose proof (k_dir_real couple 2 ltac:(lra) eq_refl couple_grid) as D. assert (kt2 (bgrid couple) (baxis couple) [0; 0; 1]%nat = 1%R) as T.
  { unfold kt2. rewrite rsum3. cbn [couple baxis Nat.eqb]. change (bgrid _) with (bgrid couple). rewrite couple_kvec. unfold kvec at 1 2, k_axis. cbn [couple bgrid rshape rstep nth INR Nat.eqb]. change (k_index 1 0) with 0%Z. change (k_index 2 1) with (-1)%Z.
    unfold Rdiv. rewrite !Rmult_0_r, !Rmult_0_l. lra. }
  assert (wnorm couple 2 [0; 0; 1]%nat = 2%R) as W. { unfold wnorm. rewrite T, Rmax_left by lra. apply sqrt_square. lra. }
  split; rewrite D by lia; rewrite W; f_equal; unfold wave_vector.
  - cbn [couple baxis Nat.eqb]. unfold axial. change (kt2 _ 0 _) with (kt2 (bgrid couple) (baxis couple) [0; 0; 1]%nat). rewrite T, Rmax_right by lra. f_equal. f_equal. ring.
  - cbn [couple baxis Nat.eqb]. change (bgrid _) with (bgrid couple). rewrite couple_kvec. cbn [nth Nat.eqb]. change (k_index 2 1) with (-1)%Z. lra.
Qed.
Lemma couple_shift q : shift_ft couple q = 1.
Proof. unfold shift_ft. rewrite rsum3. cbn [couple bfirst]. replace (_ + _)%R with 0%R by ring. apply cis_0. Qed.
Lemma couple_ft (f : sfield) : ft (bshape couple) f [0; 0; 1]%nat = f [0; 0; 0]%nat - f [0; 0; 1]%nat /\ ft (bshape couple) f [0; 0; 0]%nat = f [0; 0; 0]%nat + f [0; 0; 1]%nat.
Proof.
  unfold ft. cbn [bshape couple bgrid rshape sum_over csum phase INR].
  assert (forall x, x = 0%R -> cis x = 1) as C0 by (intros x ->; apply cis_0). assert (forall x, x = (- PI)%R -> cis x = - RtoC 1) as C1.
  { intros x ->. rewrite cis_neg. unfold cis. rewrite cos_PI, sin_PI. unfold Cconj, Copp, RtoC. cbn. f_equal; lra. }
  split; rewrite !Cplus_0_l; (rewrite C0 by field); [rewrite C1 by field|rewrite C0 by field]; ring.
Qed.
Lemma couple_read e f s : (e = 1 \/ e = -1)%R -> vagree 3 (bshape couple) f (alternating e) -> read_field couple (run couple s [SetField f]) 0%nat [0; 0; 0]%nat = RtoC (e * sqrt 3 / 4).
Proof.
  intros He Hf. assert (1 <= sqrt 3)%R as S3 by (rewrite <- sqrt_1 at 1; apply sqrt_le_1; lra). destruct couple_dir as [D0 D2].
  unfold run. cbn [fold_left act]. set (s' := set_field couple f).
  assert (forall q, field_hat s' 0%nat q = 0 - k_dir couple 0 q * (k_dir couple 2 q * ft (bshape couple) (alternating e 2%nat) q)) as F.
  { intros q. unfold s', set_field. cbn [extended couple bshape bgrid rshape existsb Nat.ltb Nat.leb orb set_ft field_hat]. change (project _ _ 0%nat q) with (project couple (fun c q => ft (bshape couple) (f c) q * Cconj (shift_ft couple q)) 0%nat q).
    unfold project. cbn [couple bcomp Nat.ltb Nat.leb]. change {| bgrid := _; bfirst := _; bk := _; bn := _; baxis := _; bcomp := _ |} with couple. rewrite csum3.
    rewrite (ft_ext (bshape couple) (f 0%nat) (alternating e 0%nat) q), (ft_ext (bshape couple) (f 1%nat) (alternating e 1%nat) q), (ft_ext (bshape couple) (f 2%nat) (alternating e 2%nat) q) by (intros p Hp; apply Hf; [lia|exact Hp]).
    assert (forall c, c <> 2%nat -> ft (bshape couple) (alternating e c) q = 0) as Z0.
    { intros c Hc. unfold ft, alternating. rewrite (proj2 (Nat.eqb_neq c 2) Hc). erewrite sum_over_ext; [apply sum_over_zero|]. intros p Hp. cbv beta. ring. }
    rewrite !Z0 by lia. rewrite couple_shift. assert (Cconj 1 = 1) as -> by (unfold Cconj, RtoC; cbn; f_equal; ring).
    change [1; 1; 2]%nat with (bshape couple). ring. }
  assert (field_hat s' 0%nat [0; 0; 1]%nat = RtoC (e * sqrt 3 / 2)) as F1.
  { rewrite F, D0, D2, (proj1 (couple_ft _)). change (alternating e 2%nat [0; 0; 0]%nat) with (RtoC e). change (alternating e 2%nat [0; 0; 1]%nat) with (RtoC (- e)). rewrite <- RtoC_minus, <- !RtoC_mult, <- RtoC_minus. f_equal. field. }
  assert (field_hat s' 0%nat [0; 0; 0]%nat = 0) as F0.
  { rewrite F, (proj2 (couple_ft _)). change (alternating e 2%nat [0; 0; 0]%nat) with (RtoC e). change (alternating e 2%nat [0; 0; 1]%nat) with (RtoC (- e)). rewrite RtoC_opp. ring. }
  assert (read_ft couple s' = field_hat s') as R.
  { unfold read_ft, settle. change (pending s') with 0%R. rewrite Rabs_R0, (proj2 (tiny_true 0)) by lra. reflexivity. }
  assert (negligible couple (field_hat s') = false) as N.
  { apply not_true_is_false. intros N. pose proof (proj1 (negligible_spec couple _) N 0%nat [0; 0; 1]%nat ltac:(cbn; lia) ltac:(repeat constructor)) as L. rewrite F1, Cmod_R in L.
    destruct He as [-> | ->]; [rewrite Rabs_pos_eq in L by lra; lra|rewrite Rabs_left in L by lra; lra]. }
  unfold read_field. rewrite R, N. change (extended couple) with true. cbv iota. unfold ift. cbn [bshape couple bgrid rshape sum_over csum phase INR points fold_right Nat.mul Nat.add].
  change {| bgrid := _; bfirst := _; bk := _; bn := _; baxis := _; bcomp := _ |} with couple. rewrite F0, F1, !couple_shift. assert (forall x, x = 0%R -> cis x = 1) as C0 by (intros x ->; apply cis_0).
  rewrite !C0 by field. rewrite !Cplus_0_l, Cmult_0_l, Cmult_0_l, Cplus_0_l, !Cmult_1_r. unfold Cdiv. rewrite <- RtoC_inv, <- RtoC_mult by lra. f_equal. field.
Qed.
Lemma alternating_mirrored : vagree 3 (bshape couple) (mirrored true 2 (bshape couple) (alternating 1)) (alternating (-1)).
Proof.
  intros c p Hc Hp. inversion Hp as [|? a ? p1 A Hp1]; subst. inversion Hp1 as [|? a1 ? p2 A1 Hp2]; subst. inversion Hp2 as [|? a2 ? p3 A2 Hp3]; subst. inversion Hp3; subst.
  assert (a = 0)%nat as -> by lia. assert (a1 = 0)%nat as -> by lia. assert (a2 = 0 \/ a2 = 1)%nat as [->| ->] by lia; destruct c as [|[|[|]]]; try lia; unfold mirrored, alternating; cbn; unfold RtoC, Copp; cbn; f_equal; ring.
Qed.
