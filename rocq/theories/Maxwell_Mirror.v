(** Mirror images and the order of the axes for magnetic and chiral media. *)
From Coq Require Import Reals Lra Lia List Arith Bool FunctionalExtensionality.
Require Import Verif.Base Verif.Cplx Verif.CSum Verif.Field Verif.Fourier_Model Verif.Fourier_Spec Verif.Fourier_Proofs.
Require Import Verif.Vec_Model Verif.Vec_Spec Verif.Vec_Proofs Verif.Solver_Model Verif.Solver_Spec Verif.Solver_Proofs Verif.Symmetry_Reciprocity Verif.Choice_Model Verif.Derived_Model Verif.Derived_Spec Verif.Magnetic_Spec.
Require Import Verif.Symmetry_Spec Verif.Symmetry_Mirror Verif.Maxwell_Spec Verif.Maxwell_Proofs.
Import ListNotations.
Local Open Scope R_scope.
Local Open Scope C_scope.

Lemma tapply_negated t F c p : tapply (negated t) F c p = - tapply t F c p.
Proof. destruct t as [f|m]; cbn [negated tapply]; [ring|]. cbn [csum]. ring. Qed.

(** ** A rearrangement of the points and the components that changes right hands into left hands *)
Section Handed.
Variables (g g' : raster) (tau back : list nat -> list nat) (P : nat -> nat) (sg : nat -> R).
Let s := rshape g.
Let s' := rshape g'.
Hypothesis Htau : forall p, inside s' p -> inside s (tau p).
Hypothesis Hback : forall p, inside s' p -> back (tau p) = p.
Hypothesis Hsum : forall F, sum_over s' (fun p => F (tau p)) = sum_over s F.
Hypothesis Hpoints : points s' = points s.
Hypothesis Hphase : forall j k, inside s' j -> inside s' k -> cis (phase s (tau j) (tau k)) = cis (phase s' j k).
Hypothesis HP : forall c, (c < 3)%nat -> (P c < 3)%nat.
Hypothesis HPP : forall c, P (P c) = c.
Hypothesis Hsg : forall c, (sg c * sg c = 1)%R.
Hypothesis HPsum : forall f : nat -> C, csum 3 (fun c => f (P c)) = csum 3 f.
Hypothesis Hdim : (rndim g <= 3)%nat.
Hypothesis Hproper : proper g'.
Hypothesis Hdim' : (rndim g' <= 3)%nat.
Hypothesis Hfreq : forall k0, highest_frequency g' k0 = highest_frequency g k0.
Hypothesis Hk : forall k i, inside s' k -> (i < 3)%nat -> wavevector g' k i = (sg i * wavevector g (tau k) (P i))%R.
(** The cross product of two rearranged vectors is minus the rearranged cross product. *)
Hypothesis Hcross : forall (a b : nat -> C) c, (c < 3)%nat -> cross3 (fun i => RtoC (sg i) * a (P i)) (fun i => RtoC (sg i) * b (P i)) c = - (RtoC (sg c) * cross3 a b (P c)).
Local Notation mv := (moved tau P sg).
Local Notation mt := (moved_tensor tau P sg).

Lemma mv_curl F : vagree 3 s' (curl g' 3 (mv F)) (fun c p => - mv (curl g 3 F) c p).
Proof.
  intros c p Hc Hp. transitivity (mv (convolve s (fun F c k => - curl_ft g 3 3 F c k) F) c p).
  - unfold curl. fold s s'. apply (convolve_moved true g g' tau P sg Hsum Hpoints Hphase (fun F c k => - curl_ft g 3 3 F c k) (curl_ft g' 3 3) F (curl_pointwise g' Hdim')); try assumption.
    intros F' d k Hd Hk'. unfold moved at 2. rewrite (curl_ft_cross g' _ d k Hdim' Hd), (curl_ft_cross g _ (P d) (tau k) Hdim (HP d Hd)).
    transitivity (Ci * cross3 (fun i => RtoC (sg i) * RtoC (wavevector g (tau k) (P i))) (fun i => RtoC (sg i) * F' (P i) (tau k)) d).
    + f_equal. assert (K : forall i, (i < 3)%nat -> RtoC (wavevector g' k i) = RtoC (sg i) * RtoC (wavevector g (tau k) (P i))) by (intros i Hi; rewrite Hk by assumption; apply RtoC_mult).
      unfold cross3, moved. destruct d as [|[|d]]; rewrite !K by lia; reflexivity.
    + rewrite (Hcross (fun i => RtoC (wavevector g (tau k) i)) (fun i => F' i (tau k)) d Hd). ring.
  - unfold moved, curl, convolve, vift. fold s. transitivity (RtoC (sg c) * (RtoC (-1) * ift s (curl_ft g 3 3 (vft s F) (P c)) (tau p))).
    + f_equal. rewrite <- ift_scal. apply ift_ext. intros k _. replace (RtoC (-1)) with (- RtoC 1) by (rewrite <- RtoC_opp; f_equal; ring). ring.
    + replace (RtoC (-1)) with (- RtoC 1) by (rewrite <- RtoC_opp; f_equal; ring). ring.
Qed.
Lemma mv_tapply t F c p : tapply (mt t) (mv F) c p = mv (tapply t F) c p.
Proof. apply (tapply_moved true tau P sg Hsg HPsum). destruct t; exact I || reflexivity. Qed.
Lemma mv_opp F c p : tapply (mt F) (mv (fun c p => 0)) c p = 0.
Proof. destruct F as [f|m]; cbn [moved_tensor tapply]; unfold moved; [ring|cbn [csum]; ring]. Qed.
Lemma tapply_opp t (F : vfield) c p : tapply t (fun c p => - F c p) c p = - tapply t F c p.
Proof. destruct t as [f|m]; cbn [tapply]; [ring|cbn [csum]; ring]. Qed.
Lemma curl_opp (F : vfield) : vagree 3 s' (curl g' 3 (fun c p => - F c p)) (fun c p => - curl g' 3 F c p).
Proof.
  intros c p Hc Hp. transitivity (RtoC (-1) * curl g' 3 F c p); [|replace (RtoC (-1)) with (- RtoC 1) by (rewrite <- RtoC_opp; f_equal; ring); ring].
  rewrite <- (curl_scal g' F (RtoC (-1)) Hdim' c p Hc Hp). apply (curl_vagree g' _ _ Hdim'); [|exact Hc|exact Hp].
  intros d q _ _. replace (RtoC (-1)) with (- RtoC 1) by (rewrite <- RtoC_opp; f_equal; ring). ring.
Qed.
Lemma mv_maxwell u k0 epsilon xi zeta mu E H J : maxwell u g k0 epsilon xi zeta mu E H J ->
  maxwell u g' k0 (mt epsilon) (negated (mt xi)) (negated (mt zeta)) (mt mu) (mv E) (fun c p => - mv H c p) (mv J).
Proof.
  intros [F A]. split; intros c p Hc Hp.
  - rewrite (mv_curl E c p Hc Hp). unfold constitutive_B. rewrite tapply_negated, tapply_opp, !mv_tapply. unfold moved.
    rewrite (F (P c) (tau p) (HP c Hc) (Htau p Hp)). unfold constitutive_B. unfold Cdiv. ring.
  - rewrite (curl_opp (mv H) c p Hc Hp), (mv_curl H c p Hc Hp). unfold constitutive_D. rewrite tapply_negated, tapply_opp, !mv_tapply. unfold moved.
    rewrite (A (P c) (tau p) (HP c Hc) (Htau p Hp)). unfold constitutive_D. unfold Cdiv. ring.
Qed.
(** Every field is a rearranged field. *)
Definition unmoved (F : vfield) : vfield := fun c p => RtoC (sg (P c)) * F (P c) (back p).
Lemma mv_unmoved F : vagree 3 s' F (mv (unmoved F)).
Proof. intros c p _ Hp. unfold moved, unmoved. rewrite HPP, Hback, Cmult_assoc by exact Hp. rewrite (sg_sq sg Hsg). ring. Qed.
Lemma tapply_agree t F G : vagree 3 s' F G -> vagree 3 s' (tapply t F) (tapply t G).
Proof. intros H c p Hc Hp. destruct t as [f|m]; cbn [tapply csum]; rewrite ?H by (assumption || lia); reflexivity. Qed.
Lemma mv_agree F G : vagree 3 s F G -> vagree 3 s' (mv F) (mv G).
Proof. intros H c p Hc Hp. unfold moved. rewrite (H (P c) (tau p)); [reflexivity|apply HP, Hc|apply Htau, Hp]. Qed.
Lemma mv_inverse mu nu : inverse_of s mu nu -> inverse_of s' (mt mu) (mt nu).
Proof.
  assert (Q : forall a b F, (forall F, vagree 3 s (tapply a (tapply b F)) F) -> vagree 3 s' (tapply (mt a) (tapply (mt b) F)) F).
  { intros a b F H c p Hc Hp. rewrite (mv_unmoved F c p Hc Hp). rewrite <- (mv_agree _ _ (H (unmoved F)) c p Hc Hp). rewrite <- mv_tapply. apply (tapply_agree (mt a)); [|exact Hc|exact Hp].
    intros d q Hd Hq. rewrite <- mv_tapply. apply (tapply_agree (mt b)); [apply mv_unmoved|exact Hd|exact Hq]. }
  intros H F. split; apply Q; intros G; apply H.
Qed.
Lemma mv_coupling xi zeta nu kappa : (forall G, vagree 3 s (coupling xi zeta nu G) (fun c p => kappa * G c p)) ->
  forall G, vagree 3 s' (coupling (negated (mt xi)) (negated (mt zeta)) (mt nu) G) (fun c p => - kappa * G c p).
Proof.
  intros H G c p Hc Hp. rewrite (mv_unmoved G c p Hc Hp). unfold coupling. rewrite tapply_negated.
  assert (N : tapply (mt nu) (tapply (negated (mt zeta)) G) c p = - tapply (mt nu) (tapply (mt zeta) (mv (unmoved G))) c p).
  { rewrite <- tapply_opp. apply (tapply_agree (mt nu)); [|exact Hc|exact Hp]. intros d q Hd Hq. rewrite tapply_negated. f_equal. apply (tapply_agree (mt zeta)); [apply mv_unmoved|exact Hd|exact Hq]. }
  assert (M : tapply (mt xi) (tapply (mt nu) G) c p = mv (tapply xi (tapply nu (unmoved G))) c p).
  { rewrite <- mv_tapply. apply (tapply_agree (mt xi)); [|exact Hc|exact Hp]. intros d q Hd Hq. rewrite <- mv_tapply. apply (tapply_agree (mt nu)); [apply mv_unmoved|exact Hd|exact Hq]. }
  assert (N' : tapply (mt nu) (tapply (mt zeta) (mv (unmoved G))) c p = mv (tapply nu (tapply zeta (unmoved G))) c p).
  { rewrite <- mv_tapply. apply (tapply_agree (mt nu)); [|exact Hc|exact Hp]. intros d q Hd Hq. apply mv_tapply. }
  rewrite N, M, N'. unfold moved. pose proof (H (unmoved G) (P c) (tau p) (HP c Hc) (Htau p Hp)) as Q. unfold coupling in Q.
  transitivity (- (RtoC (sg c) * (tapply xi (tapply nu (unmoved G)) (P c) (tau p) + tapply nu (tapply zeta (unmoved G)) (P c) (tau p)))); [ring|]. rewrite Q. ring.
Qed.
Lemma mv_length (w : nat -> C) : length2 (fun i => RtoC (sg i) * w (P i)) = length2 w.
Proof.
  unfold length2. apply RtoC_inj. rewrite <- !csum_RtoC, <- (HPsum (fun i => RtoC (Cmod (w i) * Cmod (w i)))). apply csum_ext. intros i _. rewrite Cmod_mult, Cmod_R. f_equal.
  assert (Rabs (sg i) * Rabs (sg i) = 1)%R as Q by (rewrite <- Rabs_mult, Hsg; apply Rabs_R1). transitivity ((Rabs (sg i) * Rabs (sg i)) * (Cmod (w (P i)) * Cmod (w (P i))))%R; [ring|rewrite Q; ring].
Qed.
Lemma mv_point t (w : nat -> C) p i : at_point (mt t) (fun i => RtoC (sg i) * w (P i)) p i = RtoC (sg i) * at_point t w (tau p) (P i).
Proof. exact (mv_tapply t (fun j _ => w j) i p). Qed.
Lemma mv_absorbs epsilon xi zeta mu loss : absorbs_both s epsilon xi zeta mu loss -> absorbs_both s' (mt epsilon) (negated (mt xi)) (negated (mt zeta)) (mt mu) loss.
Proof.
  intros A p E H Hp. set (e := fun j => RtoC (sg (P j)) * E (P j)). set (h := fun j => - (RtoC (sg (P j)) * H (P j))).
  assert (EE : E = fun j => RtoC (sg j) * e (P j)) by (apply functional_extensionality; intros j; unfold e; rewrite HPP, Cmult_assoc, (sg_sq sg Hsg); ring).
  assert (HH : H = fun j => - (RtoC (sg j) * h (P j))) by (apply functional_extensionality; intros j; unfold h; rewrite HPP; transitivity (RtoC (sg j) * RtoC (sg j) * H j); [rewrite (sg_sq sg Hsg); ring|ring]).
  assert (O : forall t w i, at_point t (fun j => - w j) p i = - at_point t w p i) by (intros t w i; exact (tapply_opp t (fun j _ => w j) i p)).
  assert (N : forall t w i, at_point (negated t) w p i = - at_point t w p i) by (intros t w i; exact (tapply_negated t (fun j _ => w j) i p)).
  assert (L : length2 H = length2 h). { rewrite HH, <- (mv_length h). unfold length2. apply rsum_ext. intros i _. rewrite Cmod_opp. reflexivity. }
  pose proof (A (tau p) e h (Htau p Hp)) as Q. rewrite L, EE, mv_length. rewrite <- HPsum in Q. rewrite (csum_ext 3 _ (fun c => Cconj (e (P c)) * (at_point epsilon e (tau p) (P c) + at_point xi h (tau p) (P c)) + Cconj (h (P c)) * (at_point zeta e (tau p) (P c) + at_point mu h (tau p) (P c)))%C); [exact Q|].
  intros i _. rewrite HH, !N, !O, !mv_point, !Cconj_mult, Cconj_opp, Cconj_mult, !Cconj_R.
  transitivity ((RtoC (sg i) * RtoC (sg i)) * (Cconj (e (P i)) * (at_point epsilon e (tau p) (P i) + at_point xi h (tau p) (P i)) + Cconj (h (P i)) * (at_point zeta e (tau p) (P i) + at_point mu h (tau p) (P i)))); [ring|]. rewrite (sg_sq sg Hsg). ring.
Qed.
Lemma mv_problem eps k0 epsilon xi zeta mu settled settled' loss : magnetic_problem eps g k0 epsilon xi zeta mu settled loss -> is_magnetic s' (negated (mt xi)) (negated (mt zeta)) (mt mu) = true ->
  (20 * sqrt (2 * sqrt eps) * ((1 + highest_frequency g k0) * (1 + highest_frequency g k0)) < snd settled' * snd settled')%R ->
  magnetic_problem eps g' k0 (mt epsilon) (negated (mt xi)) (negated (mt zeta)) (mt mu) settled' loss.
Proof.
  intros (He & He1 & (_ & Hs & _) & Hk0 & (nu & Hnu & kappa & Hc) & _ & _ & Hl & Ha) M Pr.
  refine (conj He (conj He1 (conj (conj Hproper (conj Hs (fun _ => Hdim'))) (conj Hk0 (conj _ (conj M (conj _ (conj Hl _)))))))).
  - exists (mt nu). split; [apply mv_inverse, Hnu|]. exists (- kappa). apply mv_coupling, Hc.
  - rewrite Hfreq. exact Pr.
  - apply mv_absorbs, Ha.
Qed.
Lemma mv_driving u k0 J : mv (driving u k0 J) = driving u k0 (mv J).
Proof. apply functional_extensionality. intros c. apply functional_extensionality. intros p. unfold moved, driving. ring. Qed.
Lemma mv_computes eps u k0 epsilon xi zeta mu settled settled' thick thick' loss J E : physical u -> magnetic_problem eps g k0 epsilon xi zeta mu settled loss ->
  is_magnetic s' (negated (mt xi)) (negated (mt zeta)) (mt mu) = true ->
  (20 * sqrt (2 * sqrt eps) * ((1 + highest_frequency g k0) * (1 + highest_frequency g k0)) < snd settled' * snd settled')%R ->
  computes 3 s k0 (construct eps g k0 true epsilon xi zeta mu settled thick (driving u k0 J)) E ->
  computes 3 s' k0 (construct eps g' k0 true (mt epsilon) (negated (mt xi)) (negated (mt zeta)) (mt mu) settled' thick' (driving u k0 (mv J))) (mv E).
Proof.
  intros U Pb M Pr C. destruct (computed _ u _ _ _ _ _ _ _ _ _ _ _ U Pb C) as (H & HM).
  exact (solution_computed _ u _ _ _ _ _ _ _ _ _ _ _ _ U (mv_problem _ _ _ _ _ _ _ _ _ Pb M Pr) (mv_maxwell u k0 epsilon xi zeta mu E H J HM)).
Qed.
End Handed.

(** ** Mirror images *)
Lemma mirrored_tensor_handed axis s t : mirrored_tensor axis s t = moved_tensor (opposite axis s) (fun c => c) (mirror_sign true axis) t.
Proof. apply (mirrored_tensor_moved true). destruct t; exact I || reflexivity. Qed.
Lemma opposite_twice axis : forall s p, inside s p -> opposite axis s (opposite axis s p) = p.
Proof.
  induction axis as [|a IH]; intros s p H; inversion H as [|n j s' p' Hj Hp]; subst; cbn [opposite]; try reflexivity; [|f_equal; apply IH, Hp].
  f_equal. rewrite (opposite_neg1 n j Hj), opposite_neg1; unfold neg1; destruct (Nat.eqb_spec j 0) as [E|E]; cbn [Nat.eqb]; try lia. destruct (Nat.eqb_spec (n - j) 0); lia.
Qed.
Lemma handed_mirror eps u g k0 epsilon xi zeta mu settled settled' thick thick' loss axis J E : physical u -> magnetic_problem eps g k0 epsilon xi zeta mu settled loss ->
  (axis < 3)%nat -> Nat.odd (nth axis (rshape g) 1%nat) = true -> let s := rshape g in let mt := mirrored_tensor axis s in
  is_magnetic s (negated (mt xi)) (negated (mt zeta)) (mt mu) = true ->
  (20 * sqrt (2 * sqrt eps) * ((1 + highest_frequency g k0) * (1 + highest_frequency g k0)) < snd settled' * snd settled')%R ->
  computes 3 s k0 (construct eps g k0 true epsilon xi zeta mu settled thick (driving u k0 J)) E ->
  computes 3 s k0 (construct eps g k0 true (mt epsilon) (negated (mt xi)) (negated (mt zeta)) (mt mu) settled' thick' (driving u k0 (mirrored true axis s J))) (mirrored true axis s E).
Proof.
  intros U Pb Ha O s mt M Pr C. unfold mt in *. rewrite !mirrored_tensor_handed, !mirrored_moved in *. pose proof Pb as (_ & _ & (Hg & _ & Hd) & _). specialize (Hd eq_refl).
  apply (mv_computes g g (opposite axis s) (opposite axis s) (fun c => c) (mirror_sign true axis)) with (settled := settled) (thick := thick) (loss := loss); try assumption; try reflexivity.
  - intros p. apply opposite_inside.
  - intros p. apply opposite_twice.
  - apply opposite_sum.
  - apply opposite_phase.
  - auto.
  - intros c. unfold mirror_sign. destruct (true && (c =? axis))%bool; ring.
  - intros k i Hk _. rewrite wavevector_opposite by assumption. unfold mirror_sign. destruct (true && (i =? axis))%bool; ring.
  - intros a b c Hc. assert (N : RtoC (-1) = - RtoC 1) by (rewrite <- RtoC_opp; f_equal; ring).
    destruct axis as [|[|[|axis]]]; [| | |lia]; destruct c as [|[|[|c]]]; try lia; unfold cross3, mirror_sign; cbn [andb Nat.eqb]; rewrite ?N; ring.
Qed.

(** ** The order of the axes *)
Lemma exchange_fold (f : R -> R) axis : forall l, fold_right (fun d sum => (f d + sum)%R) 0%R (exchange axis l) = fold_right (fun d sum => (f d + sum)%R) 0%R l.
Proof. induction axis as [|a IH]; intros [|x l]; cbn [exchange fold_right]; try reflexivity; [destruct l as [|y l]; cbn [fold_right]; [reflexivity|ring]|rewrite IH; reflexivity]. Qed.
Lemma exchanged_tensor_handed axis t : exchanged_tensor axis t = moved_tensor (exchange axis) (swap true axis) (fun _ => 1%R) t.
Proof. apply (exchanged_tensor_moved true). destruct t; exact I || reflexivity. Qed.
Lemma handed_exchange eps u g k0 epsilon xi zeta mu settled settled' thick thick' loss axis J E : physical u -> magnetic_problem eps g k0 epsilon xi zeta mu settled loss ->
  (Datatypes.S axis < rndim g)%nat -> let g' := exchanged_grid axis g in let et := exchanged_tensor axis in
  is_magnetic (rshape g') (negated (et xi)) (negated (et zeta)) (et mu) = true ->
  (20 * sqrt (2 * sqrt eps) * ((1 + highest_frequency g k0) * (1 + highest_frequency g k0)) < snd settled' * snd settled')%R ->
  computes 3 (rshape g) k0 (construct eps g k0 true epsilon xi zeta mu settled thick (driving u k0 J)) E ->
  computes 3 (rshape g') k0 (construct eps g' k0 true (et epsilon) (negated (et xi)) (negated (et zeta)) (et mu) settled' thick' (driving u k0 (exchanged true axis J))) (exchanged true axis E).
Proof.
  intros U Pb Ha g' et M Pr C. unfold et in *. rewrite !exchanged_tensor_handed, !exchanged_moved in *. pose proof Pb as (_ & _ & (Hg & _ & Hd) & _). specialize (Hd eq_refl).
  assert (Back : forall p, inside (rshape g') p -> inside (rshape g) (exchange axis p)) by (intros p Hp; apply (exchange_inside axis) in Hp; unfold g', exchanged_grid in Hp; cbn [rshape] in Hp; rewrite exchange_exchange in Hp; exact Hp).
  apply (mv_computes g g' (exchange axis) (exchange axis) (swap true axis) (fun _ => 1%R)) with (settled := settled) (thick := thick) (loss := loss); try assumption.
  - intros p _. apply exchange_exchange.
  - intros F. apply exchange_sum.
  - apply exchange_points.
  - intros j k Hj Hk. f_equal. rewrite <- (exchange_phase axis (rshape g') j k Hj Hk). unfold g', exchanged_grid. cbn [rshape]. rewrite exchange_exchange. reflexivity.
  - intros c Hc. unfold swap, exchange_index. destruct (Nat.eqb_spec c axis); [lia|]. destruct (Nat.eqb_spec c (Datatypes.S axis)); lia.
  - intros c. apply exchange_index_twice.
  - intros _. ring.
  - intros f. unfold swap. assert (axis = 0 \/ axis = 1)%nat as [->| ->] by lia; cbn; ring.
  - apply exchanged_proper, Hg.
  - unfold g'. rewrite exchanged_ndim. exact Hd.
  - intros k. unfold highest_frequency, g', exchanged_grid. cbn [rstep]. rewrite (exchange_fold (fun d => PI / d * (PI / d))%R). reflexivity.
  - intros k i Hk _. pose proof (Back k Hk) as Hb. unfold swap. rewrite <- !exchanged_wavevector by assumption. rewrite exchange_exchange. fold g'. ring.
  - intros a b c Hc. assert (axis = 0 \/ axis = 1)%nat as [->| ->] by lia; destruct c as [|[|[|c]]]; try lia; unfold cross3, swap, exchange_index; cbn [Nat.eqb]; ring.
Qed.

(** ** Not for a mirror perpendicular to an axis with an even number of points *)
Lemma source_unique u g k0 epsilon xi zeta mu nu E H J E' H' J' : physical u -> (k0 <> 0)%R -> (rndim g <= 3)%nat -> inverse_of (rshape g) mu nu -> vagree 3 (rshape g) E E' ->
  maxwell u g k0 epsilon xi zeta mu E H J -> maxwell u g k0 epsilon xi zeta mu E' H' J' -> vagree 3 (rshape g) J J'.
Proof.
  intros (Uc & Um & _ & _) K Hn Hnu HE (F & A) (F' & A'). assert (RtoC (c_light u) <> 0) as Hc' by (apply RtoC_neq; lra). assert (RtoC (mu_0 u) <> 0) as Hm' by (apply RtoC_neq; lra). assert (RtoC k0 <> 0) as Hk' by (apply RtoC_neq; exact K).
  assert (Ci <> 0) as Hi by (intros X; apply (f_equal snd) in X; cbn in X; lra).
  assert (TE : forall t, vagree 3 (rshape g) (tapply t E) (tapply t E')) by (intros t c p Hc Hp; destruct t as [f|m]; cbn [tapply csum]; rewrite ?HE by (assumption || lia); reflexivity).
  assert (MH : vagree 3 (rshape g) (tapply mu H) (tapply mu H')).
  { intros c p Hc Hp. pose proof (F c p Hc Hp) as X. rewrite (curl_vagree g _ _ Hn HE c p Hc Hp), (F' c p Hc Hp) in X. unfold constitutive_B in X. rewrite (TE zeta c p Hc Hp), RtoC_mult in X.
    set (a := tapply zeta E' c p / RtoC (c_light u)) in *. set (x := tapply mu H c p) in *. set (y := tapply mu H' c p) in *.
    replace x with ((Ci * (RtoC k0 * RtoC (c_light u)) * (a + RtoC (mu_0 u) * x) / (Ci * (RtoC k0 * RtoC (c_light u))) - a) / RtoC (mu_0 u)) by (field; repeat split; assumption). rewrite <- X. field. repeat split; assumption. }
  assert (HH : vagree 3 (rshape g) H H').
  { intros c p Hc Hp. rewrite <- (proj2 (Hnu H) c p Hc Hp), <- (proj2 (Hnu H') c p Hc Hp). destruct nu as [f|m]; cbn [tapply csum]; rewrite ?MH by (assumption || lia); reflexivity. }
  intros c p Hc Hp. pose proof (A c p Hc Hp) as X. rewrite (curl_vagree g _ _ Hn HH c p Hc Hp), (A' c p Hc Hp) in X. unfold constitutive_D in X. rewrite (TE epsilon c p Hc Hp) in X.
  assert (tapply xi H c p = tapply xi H' c p) as XH by (destruct xi as [f|m]; cbn [tapply csum]; rewrite ?HH by (assumption || lia); reflexivity). rewrite XH in X.
  set (d := Ci * _ * _) in X. transitivity ((J c p - d) + d); [ring|]. rewrite <- X. ring.
Qed.
Lemma opposite_two p : inside [2]%nat p -> opposite 0 [2]%nat p = p.
Proof. intros H. inversion H as [|? i ? q Hi Hq]; subst. cbn [opposite]. f_equal. destruct i as [|[|i]]; [reflexivity|reflexivity|lia]. Qed.
Lemma not_mirrored eps u k0 x settled settled' thick thick' loss loss' : let g := {| rshape := [2]%nat; rstep := [1]%R |} in let s := rshape g in let mt := mirrored_tensor 0 s in
  let epsilon := tuniform (1, 1)%R in let xi := tuniform (0, x)%R in let zeta := tuniform (0, - x)%R in let mu := tuniform (1, 1)%R in physical u -> x <> 0%R ->
  magnetic_problem eps g k0 epsilon xi zeta mu settled loss -> magnetic_problem eps g k0 (mt epsilon) (negated (mt xi)) (negated (mt zeta)) (mt mu) settled' loss' ->
  exists J E, computes 3 s k0 (construct eps g k0 true epsilon xi zeta mu settled thick (driving u k0 J)) E /\
    ~ computes 3 s k0 (construct eps g k0 true (mt epsilon) (negated (mt xi)) (negated (mt zeta)) (mt mu) settled' thick' (driving u k0 (mirrored true 0 s J))) (mirrored true 0 s E).
Proof.
  intros g s mt epsilon xi zeta mu U Hx Pb Pb'. assert (K : k0 <> 0%R) by apply Pb. assert (Mu : ((1, 1)%R : C) <> 0) by (intros X; apply (f_equal fst) in X; cbn in X; lra).
  pose proof (wave_solves u k0 (1, 1)%R (0, x)%R (0, - x)%R (1, 1)%R U K Mu (unit 2)) as W. pose proof (wave_solves u k0 (1, 1)%R (- ((0, x)%R : C)) (- ((0, - x)%R : C)) (1, 1)%R U K Mu (unit 2)) as W'.
  exists (wave (drive u k0 (1, 1)%R (0, x)%R (0, - x)%R (1, 1)%R (unit 2))), (wave (unit 2)). split; [exact (solution_computed _ u g _ _ _ _ _ _ _ _ _ _ _ U Pb W)|].
  intros Cp. destruct (computed _ u _ _ _ _ _ _ _ _ _ _ _ U Pb' Cp) as (H & M). destruct Pb' as (_ & _ & _ & _ & (nu & Hnu & _) & _).
  assert (HE : vagree 3 [2]%nat (mirrored true 0 [2]%nat (wave (unit 2))) (wave (unit 2))).
  { intros c p Hc Hp. unfold mirrored. rewrite opposite_two by exact Hp. cbn [andb]. destruct (Nat.eqb_spec c 0) as [->|_]; [|reflexivity]. unfold wave, unit. cbn [Nat.eqb]. ring. }
  pose proof (source_unique u g k0 _ _ _ _ nu _ _ _ _ _ _ U K ltac:(cbn; lia) Hnu HE M W') as Q. specialize (Q 1%nat [0]%nat ltac:(lia) ltac:(repeat constructor; lia)).
  unfold mirrored in Q. cbn [andb Nat.eqb] in Q. change (rshape g) with [2]%nat in Q. rewrite opposite_two in Q by (repeat constructor; lia). unfold wave in Q. rewrite !drive_y in Q by assumption.
  pose proof (wave_square [0]%nat ltac:(repeat constructor; lia)) as Sq. set (w := plane_wave two [1]%nat [0]%nat) in *.
  pose proof (Z_pos u U) as ZP. assert (RtoC (impedance u) <> 0) as Z0 by (apply RtoC_neq; lra). assert (Ci <> 0) as Hi by (intros X; apply (f_equal snd) in X; cbn in X; lra). pose proof PI_RGT_0 as PP. assert (RtoC PI <> 0) as P0 by (apply RtoC_neq; lra).
  assert (w <> 0) as W0 by (intros Z; rewrite Z in Sq; apply (f_equal fst) in Sq; cbn in Sq; lra).
  apply (f_equal (fun z => z / w * (((1, 1)%R : C) * RtoC (impedance u)) / (Ci * RtoC PI))) in Q.
  match type of Q with ?l = ?r => assert (l = ((0, x)%R : C) - (0, - x)%R) as L by (field; repeat split; assumption); assert (r = - ((0, x)%R : C) - - (0, - x)%R) as R' by (field; repeat split; assumption); rewrite L, R' in Q end.
  apply (f_equal snd) in Q. cbn in Q. lra.
Qed.
