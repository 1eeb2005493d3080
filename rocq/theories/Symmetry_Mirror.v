(** Mirror images and the order of the axes. *)
From Coq Require Import Reals Lra Lia List Arith Bool ZArith FunctionalExtensionality.
Require Import Verif.Base Verif.Cplx Verif.CSum Verif.Field Verif.Fourier_Model Verif.Fourier_Spec Verif.Fourier_Proofs.
Require Import Verif.Vec_Model Verif.Vec_Spec Verif.Vec_Proofs Verif.Solver_Model Verif.Solver_Spec Verif.Solver_Proofs Verif.Solver_Choice Verif.Solver_Convergence Verif.Solver_Limit.
Require Import Verif.Choice_Model Verif.Shift_Moves Verif.Symmetry_Spec Verif.Symmetry_Limit Verif.Symmetry_Reciprocity Verif.Symmetry_Results.
Import ListNotations.
Local Open Scope R_scope.
Local Open Scope C_scope.

(** ** A rearrangement of the points and the components *)
Section Moved.
Variables (v : bool) (g g' : raster) (tau : list nat -> list nat) (P : nat -> nat) (sg : nat -> R).
Let n := (if v then 3 else 1)%nat.
Let s := rshape g.
Let s' := rshape g'.
Hypothesis Htau : forall p, inside s' p -> inside s (tau p).
Hypothesis Hsum : forall F, sum_over s' (fun p => F (tau p)) = sum_over s F.
Hypothesis Hpoints : points s' = points s.
Hypothesis Hphase : forall j k, inside s' j -> inside s' k -> cis (phase s (tau j) (tau k)) = cis (phase s' j k).
Hypothesis HP : forall c, (c < n)%nat -> (P c < n)%nat.
Hypothesis Hsg : forall c, (sg c * sg c = 1)%R.
Hypothesis HPsum : forall f : nat -> C, csum n (fun c => f (P c)) = csum n f.
Hypothesis Hdim : v = true -> (rndim g <= 3)%nat /\ (rndim g' <= 3)%nat.
Hypothesis Hprod : v = true -> forall k i j, inside s' k -> (i < 3)%nat -> (j < 3)%nat ->
  (wavevector g' k i * wavevector g' k j = sg i * sg j * (wavevector g (tau k) (P i) * wavevector g (tau k) (P j)))%R.
Hypothesis Hk2 : v = false -> forall k, inside s' k -> k2 g' k = k2 g (tau k).

Definition moved (F : vfield) : vfield := fun c p => RtoC (sg c) * F (P c) (tau p).
Definition moved_tensor (t : tensor) : tensor :=
  match t with TScalar f => TScalar (fun p => f (tau p)) | TMatrix m => TMatrix (fun i j p => RtoC (sg i * sg j) * m (P i) (P j) (tau p)) end.

Lemma sg_sq c : RtoC (sg c) * RtoC (sg c) = 1.
Proof. rewrite <- RtoC_mult, Hsg. reflexivity. Qed.
Lemma cis_phase_opp j k : inside s' j -> inside s' k -> cis (- phase s (tau j) (tau k)) = cis (- phase s' j k).
Proof. intros Hj Hk. rewrite !cis_neg, Hphase by assumption. reflexivity. Qed.
Lemma ft_moved F c k : inside s' k -> ft s' (moved F c) k = RtoC (sg c) * ft s (F (P c)) (tau k).
Proof.
  intros Hk. unfold ft. rewrite <- (Hsum (fun j => F (P c) j * cis (- phase s j (tau k)))), <- sum_over_scal. apply sum_over_ext. intros j Hj. unfold moved. rewrite cis_phase_opp by assumption. ring.
Qed.
Lemma ift_moved F c p : inside s' p -> ift s' (moved F c) p = RtoC (sg c) * ift s (F (P c)) (tau p).
Proof.
  intros Hp. unfold ift. rewrite <- (Hsum (fun k => F (P c) k * cis (phase s (tau p) k))), Hpoints. unfold Cdiv. rewrite Cmult_assoc, <- sum_over_scal. f_equal. apply sum_over_ext. intros k Hk. unfold moved.
  rewrite Hphase by assumption. ring.
Qed.
Lemma convolve_moved op op' F : pointwise s' n op' -> (forall F c k, (c < n)%nat -> inside s' k -> op' (moved F) c k = moved (op F) c k) ->
  vagree n s' (convolve s' op' (moved F)) (moved (convolve s op F)).
Proof.
  intros Hpw H c p Hc Hp. unfold convolve, moved at 2, vift. rewrite <- (ift_moved (op (vft s F)) c p Hp). apply ift_ext. intros k Hk. rewrite <- H by assumption. apply (Hpw _ _ k Hk); [|exact Hc].
  intros d Hd. unfold vft. apply ft_moved. exact Hk.
Qed.
Lemma moved_csum3 : v = true -> forall f : nat -> C, csum 3 (fun c => f (P c)) = csum 3 f.
Proof. intros e. subst n. rewrite e in HPsum. exact HPsum. Qed.
Lemma curl_curl_moved F : vagree n s' (curl_curl_op v g' (moved F)) (moved (curl_curl_op v g F)).
Proof.
  destruct (Bool.bool_dec v true) as [e|e].
  - destruct (Hdim e) as [Hn Hn']. pose proof (moved_csum3 e) as S3. pose proof (Hprod e) as HK. intros c p Hc Hp.
    assert (Hc3 : (c < 3)%nat) by (unfold n in Hc; destruct v; lia). pose proof (HP c Hc) as HPc. assert (HPc3 : (P c < 3)%nat) by (unfold n in HPc; destruct v; lia).
    unfold curl_curl_op. rewrite e. pose proof (curl_pointwise g Hn) as PW. pose proof (curl_pointwise g' Hn') as PW'. unfold curl. fold s s'.
    rewrite (convolve_convolve s' 3 (curl_ft g' 3 3) (curl_ft g' 3 3) _ c p PW' Hc3).
    transitivity (moved (convolve s (fun F => curl_ft g 3 3 (curl_ft g 3 3 F)) F) c p); [|unfold moved; rewrite (convolve_convolve s 3 (curl_ft g 3 3) (curl_ft g 3 3) _ (P c) (tau p) PW HPc3); reflexivity].
    apply (convolve_moved (fun F => curl_ft g 3 3 (curl_ft g 3 3 F)) (fun F => curl_ft g' 3 3 (curl_ft g' 3 3 F)) F); try assumption.
    + unfold n. rewrite e. intros F' G' k Hk H d Hd. apply (PW' _ _ k Hk); [|exact Hd]. intros i Hi. apply (PW' _ _ k Hk H i Hi).
    + intros F' d k Hd Hk. assert (Hd3 : (d < 3)%nat) by (unfold n in Hd; rewrite e in Hd; exact Hd). pose proof (HP d Hd) as HPd. assert (HPd3 : (P d < 3)%nat) by (unfold n in HPd; rewrite e in HPd; exact HPd).
      change (moved (curl_ft g 3 3 (curl_ft g 3 3 F')) d k) with (RtoC (sg d) * curl_ft g 3 3 (curl_ft g 3 3 F') (P d) (tau k)). rewrite !curl_curl_products by assumption. cbv zeta.
      rewrite <- (S3 (fun j => RtoC (wavevector g (tau k) j * wavevector g (tau k) j))), <- (S3 (fun j => RtoC (wavevector g (tau k) (P d) * wavevector g (tau k) j) * F' j (tau k))).
      rewrite (csum_ext 3 (fun j => RtoC (wavevector g' k j * wavevector g' k j)) (fun j => RtoC (wavevector g (tau k) (P j) * wavevector g (tau k) (P j)))).
      2: { intros j Hj. rewrite HK, Hsg by assumption. f_equal. ring. }
      rewrite (csum_ext 3 (fun j => RtoC (wavevector g' k d * wavevector g' k j) * moved F' j k) (fun j => RtoC (sg d) * (RtoC (wavevector g (tau k) (P d) * wavevector g (tau k) (P j)) * F' (P j) (tau k)))).
      2: { intros j Hj. rewrite HK by assumption. unfold moved. rewrite !RtoC_mult. transitivity ((RtoC (sg j) * RtoC (sg j)) * (RtoC (sg d) * (RtoC (wavevector g (tau k) (P d)) * RtoC (wavevector g (tau k) (P j)) * F' (P j) (tau k)))); [ring|]. rewrite sg_sq. ring. }
      rewrite csum_scal. unfold moved. ring.
  - apply Bool.not_true_is_false in e. pose proof (Hk2 e) as HK. intros c p Hc Hp. unfold curl_curl_op. rewrite e.
    assert (L : laplacian g' (moved F) c p = moved (laplacian g F) c p).
    { unfold laplacian. apply (convolve_moved (fun F c k => RtoC (- k2 g k) * F c k) (fun F c k => RtoC (- k2 g' k) * F c k) F); try assumption.
      - intros F' G' k Hk H d Hd. rewrite H by assumption. reflexivity.
      - intros F' d k Hd Hk. unfold moved. rewrite HK by assumption. ring. }
    rewrite L. unfold moved. ring.
Qed.
Lemma tapply_moved t F c p : fits v t -> tapply (moved_tensor t) (moved F) c p = moved (tapply t F) c p.
Proof.
  intros Hf. destruct t as [f|m]; cbn [moved_tensor tapply]; unfold moved; cbn [tapply]; [ring|]. cbn in Hf. rewrite <- (moved_csum3 Hf (fun j => m (P c) j (tau p) * F j (tau p))), <- csum_scal. apply csum_ext. intros j _.
  rewrite RtoC_mult. transitivity ((RtoC (sg j) * RtoC (sg j)) * (RtoC (sg c) * (m (P c) (P j) (tau p) * F (P j) (tau p)))); [ring|]. rewrite sg_sq. ring.
Qed.
Lemma wave_moved k0 beta epsilon E S : fits v epsilon -> wave_equation v g k0 beta epsilon E S -> wave_equation v g' k0 beta (moved_tensor epsilon) (moved E) (moved S).
Proof.
  intros Hf W c p Hc Hp. fold n in Hc. fold s' in Hp. rewrite (curl_curl_moved E c p Hc Hp), tapply_moved by exact Hf. unfold moved.
  rewrite <- (W (P c) (tau p) (HP c Hc) (Htau p Hp)). ring.
Qed.

Hypothesis HPP : forall c, P (P c) = c.
Lemma absorbs_moved t loss : fits v t -> absorbs n s t loss -> absorbs n s' (moved_tensor t) loss.
Proof.
  intros Hf A p u Hp. set (w := fun j => RtoC (sg (P j)) * u (P j)).
  assert (Eu : forall j, u j = RtoC (sg j) * w (P j)) by (intros j; unfold w; rewrite HPP, Cmult_assoc, sg_sq; ring).
  assert (Ef : (fun j (_ : list nat) => u j) = moved (fun j _ => w j)) by (apply functional_extensionality; intros j; apply functional_extensionality; intros q; unfold moved; apply Eu).
  pose proof (A (tau p) w (Htau p Hp)) as Q. rewrite <- (HPsum (fun i => Cconj (w i) * tapply t (fun j _ => w j) i (tau p))) in Q.
  replace (rsum n (fun i => (Cmod (u i) * Cmod (u i))%R)) with (rsum n (fun i => (Cmod (w i) * Cmod (w i))%R)).
  - rewrite Ef. rewrite (csum_ext n _ (fun c => Cconj (w (P c)) * tapply t (fun j _ => w j) (P c) (tau p))); [exact Q|]. intros i _. rewrite tapply_moved by exact Hf. unfold moved. rewrite Eu, Cconj_mult, Cconj_R.
    transitivity ((RtoC (sg i) * RtoC (sg i)) * (Cconj (w (P i)) * tapply t (fun j _ => w j) (P i) (tau p))); [ring|]. rewrite sg_sq. ring.
  - apply RtoC_inj. rewrite <- !csum_RtoC, <- (HPsum (fun i => RtoC (Cmod (w i) * Cmod (w i)))). apply csum_ext. intros i _. rewrite (Eu i), Cmod_mult, Cmod_R. f_equal.
    assert (Rabs (sg i) * Rabs (sg i) = 1)%R as Q1 by (rewrite <- Rabs_mult, Hsg; apply Rabs_R1). transitivity ((Rabs (sg i) * Rabs (sg i)) * (Cmod (w (P i)) * Cmod (w (P i))))%R; [rewrite Q1; ring|ring].
Qed.
Lemma moved_fits t : fits v t -> fits v (moved_tensor t).
Proof. destruct t; exact (fun H => H). Qed.
Lemma lossy_moved eps k0 epsilon m loss : proper g' -> lossy_problem eps g k0 v epsilon m loss -> lossy_problem eps g' k0 v (moved_tensor epsilon) m loss.
Proof.
  intros Hg (He & H1 & Hm & Hq & Hs & Hf & Hl & Ha). destruct Hs as (Hs1 & Hs2 & Hs3).
  refine (conj He (conj H1 (conj Hm (conj Hq (conj (conj Hg (conj Hs2 _)) (conj (moved_fits _ Hf) (conj Hl _))))))); [intros e; apply Hdim, e|apply absorbs_moved; assumption].
Qed.
Lemma computes_moved eps k0 epsilon m loss settled settled' kappa kappa' S E : proper g' -> lossy_problem eps g k0 v epsilon m loss ->
  computes n s k0 (construct eps g k0 v epsilon tzero tzero (tuniform (RtoC m)) settled kappa S) E ->
  computes n s' k0 (construct eps g' k0 v (moved_tensor epsilon) tzero tzero (tuniform (RtoC m)) settled' kappa' (moved S)) (moved E).
Proof.
  intros Hg L H. apply (lossy_wave eps g k0 v epsilon m loss settled kappa S E L) in H. apply (lossy_wave eps g' k0 v _ m loss settled' kappa' _ _ (lossy_moved eps k0 epsilon m loss Hg L)).
  apply wave_moved; [apply L|exact H].
Qed.
End Moved.

(** ** Mirror images *)
Lemma opposite_inside axis : forall s p, inside s p -> inside s (opposite axis s p).
Proof.
  induction axis as [|a IH]; intros s p H; inversion H as [|n j s' p' Hj Hp]; subst; cbn [opposite]; try constructor; try assumption; [apply Nat.mod_upper_bound; lia|apply IH, Hp].
Qed.
Lemma opposite_neg1 n j : (j < n)%nat -> ((n - j) mod n)%nat = neg1 n j.
Proof. intros H. unfold neg1. destruct (Nat.eqb_spec j 0) as [->|E]; [rewrite Nat.sub_0_r; apply Nat.mod_same; lia|apply Nat.mod_small; lia]. Qed.
Lemma opposite_sum axis : forall s F, sum_over s (fun p => F (opposite axis s p)) = sum_over s F.
Proof.
  induction axis as [|a IH]; intros [|n s] F; cbn [sum_over opposite]; try reflexivity.
  - rewrite <- (csum_mirror n (fun i => sum_over s (fun p => F (i :: p)))). apply csum_ext. intros i Hi. rewrite opposite_neg1 by exact Hi. reflexivity.
  - apply csum_ext. intros i _. apply (IH s (fun p => F (i :: p))).
Qed.
Lemma opposite_phase axis : forall s j k, inside s j -> inside s k -> cis (phase s (opposite axis s j) (opposite axis s k)) = cis (phase s j k).
Proof.
  induction axis as [|a IH]; intros s j k Hj Hk; inversion Hj as [|n x s' j' Hx Hj']; subst; cbn [opposite phase]; try reflexivity; inversion Hk as [|? y ? k' Hy Hk']; subst; cbn [opposite phase].
  - rewrite !cis_plus. f_equal. rewrite !opposite_neg1 by assumption. assert (0 < INR n)%R as Hn by (apply lt_0_INR; lia). unfold neg1.
    destruct (Nat.eqb_spec x 0) as [->|Ex], (Nat.eqb_spec y 0) as [->|Ey]; try (f_equal; cbn [INR]; field; lra). rewrite !minus_INR by lia.
    replace (2 * PI * ((INR n - INR x) * (INR n - INR y)) / INR n)%R with (2 * PI * (INR n - INR x) + (- (2 * PI * INR y) + 2 * PI * (INR x * INR y) / INR n))%R by (field; lra).
    rewrite <- minus_INR by lia. rewrite !cis_plus, cis_2PI_nat, cis_neg, cis_2PI_nat, Cconj_R. ring.
  - rewrite !cis_plus, IH by assumption. reflexivity.
Qed.
Lemma opposite_nth axis : forall s p i, inside s p -> nth i (opposite axis s p) 0%nat = if Nat.eqb i axis then neg1 (nth i s 1%nat) (nth i p 0%nat) else nth i p 0%nat.
Proof.
  induction axis as [|a IH]; intros s p i H; inversion H as [|n j s' p' Hj Hp]; subst; cbn [opposite]; destruct i as [|i]; cbn [nth Nat.eqb]; try reflexivity.
  - apply opposite_neg1, Hj.
  - destruct (Nat.eqb i a); reflexivity.
  - apply IH, Hp.
Qed.
Lemma kvec_opposite g axis k i : inside (rshape g) k -> kvec g i (opposite axis (rshape g) k) = if Nat.eqb i axis then k_axis (nth i (rshape g) 1%nat) (nth i (rstep g) 1%R) (neg1 (nth i (rshape g) 1%nat) (nth i k 0%nat)) else kvec g i k.
Proof. intros Hk. unfold kvec. rewrite opposite_nth by exact Hk. destruct (Nat.eqb i axis); reflexivity. Qed.
Lemma k_axis_neg1_square n st q : (q < n)%nat -> (k_axis n st (neg1 n q) * k_axis n st (neg1 n q) = k_axis n st q * k_axis n st q)%R.
Proof.
  intros Hq. unfold k_axis. assert (k_index n (neg1 n q) = - k_index n q \/ k_index n (neg1 n q) = k_index n q)%Z as [E|E].
  { unfold neg1, k_index. destruct (Nat.eqb_spec q 0) as [E|E]; [destruct (Nat.ltb_spec (2 * 0) n), (Nat.ltb_spec (2 * q) n)|destruct (Nat.ltb_spec (2 * (n - q)) n), (Nat.ltb_spec (2 * q) n)]; lia. }
  - rewrite E, opp_IZR. unfold Rdiv. ring.
  - rewrite E. ring.
Qed.
Lemma k_axis_neg1 n st q : (q < n)%nat -> Nat.odd n = true -> k_axis n st (neg1 n q) = (- k_axis n st q)%R.
Proof.
  intros Hq O. unfold k_axis. assert (k_index n (neg1 n q) = - k_index n q)%Z as ->.
  { apply Nat.odd_spec in O as (m & Hm). unfold neg1, k_index. destruct (Nat.eqb_spec q 0) as [E|E]; [destruct (Nat.ltb_spec (2 * 0) n), (Nat.ltb_spec (2 * q) n)|destruct (Nat.ltb_spec (2 * (n - q)) n), (Nat.ltb_spec (2 * q) n)]; lia. }
  rewrite opp_IZR. unfold Rdiv. ring.
Qed.
Definition mirror_sign (v : bool) (axis c : nat) : R := if (v && Nat.eqb c axis)%bool then (-1)%R else 1%R.
Lemma wavevector_opposite g axis k i : inside (rshape g) k -> Nat.odd (nth axis (rshape g) 1%nat) = true ->
  wavevector g (opposite axis (rshape g) k) i = (mirror_sign true axis i * wavevector g k i)%R.
Proof.
  intros Hk O. unfold wavevector, mirror_sign. destruct (Nat.ltb_spec i (rndim g)) as [Hi|Hi]; [|ring]. rewrite kvec_opposite by exact Hk. cbn [andb]. destruct (Nat.eqb_spec i axis) as [->|E]; [|ring].
  rewrite k_axis_neg1 by (try exact O; apply inside_nth; assumption). unfold kvec. ring.
Qed.
Lemma k2_opposite g axis k : inside (rshape g) k -> k2 g (opposite axis (rshape g) k) = k2 g k.
Proof.
  intros Hk. unfold k2. apply rsum_ext. intros i Hi. rewrite kvec_opposite by exact Hk. destruct (Nat.eqb_spec i axis) as [->|E]; [|reflexivity]. apply k_axis_neg1_square, inside_nth; assumption.
Qed.
Lemma mirror_products g axis k i j : inside (rshape g) k -> Nat.odd (nth axis (rshape g) 1%nat) = true \/ (rndim g <= 1)%nat ->
  (wavevector g k i * wavevector g k j = mirror_sign true axis i * mirror_sign true axis j * (wavevector g (opposite axis (rshape g) k) i * wavevector g (opposite axis (rshape g) k) j))%R.
Proof.
  intros Hk [O|Hn].
  - rewrite !wavevector_opposite by assumption. unfold mirror_sign. destruct (true && (i =? axis))%bool, (true && (j =? axis))%bool; ring.
  - unfold wavevector. destruct (Nat.ltb_spec i (rndim g)) as [Hi|Hi], (Nat.ltb_spec j (rndim g)) as [Hj|Hj]; try ring. assert (j = i) as -> by lia. rewrite kvec_opposite by exact Hk. unfold mirror_sign. cbn [andb].
    destruct (Nat.eqb_spec i axis) as [->|E]; [|ring]. rewrite k_axis_neg1_square by (apply inside_nth; assumption). unfold kvec. ring.
Qed.
Lemma mirrored_moved v axis s F : mirrored v axis s F = moved (opposite axis s) (fun c => c) (mirror_sign v axis) F.
Proof.
  apply functional_extensionality. intros c. apply functional_extensionality. intros p. unfold mirrored, moved, mirror_sign. destruct (v && (c =? axis))%bool; [|ring].
  change (RtoC (-1)) with (RtoC (- (1))). rewrite RtoC_opp. ring.
Qed.
Lemma mirrored_tensor_moved v axis s t : fits v t -> mirrored_tensor axis s t = moved_tensor (opposite axis s) (fun c => c) (mirror_sign v axis) t.
Proof.
  destruct t as [f|m]; cbn [mirrored_tensor moved_tensor fits]; [reflexivity|]. intros ->. f_equal. apply functional_extensionality. intros i. apply functional_extensionality. intros j. apply functional_extensionality. intros p.
  unfold mirror_sign. cbn [andb]. destruct (i =? axis), (j =? axis); cbn [xorb]; rewrite RtoC_mult; try ring; change (RtoC (-1)) with (RtoC (- (1))); rewrite RtoC_opp; ring.
Qed.
Lemma mirror_proof eps g k0 v epsilon m loss settled settled' kappa kappa' axis S E : lossy_problem eps g k0 v epsilon m loss -> (v = true -> Nat.odd (nth axis (rshape g) 1%nat) = true \/ (rndim g <= 1)%nat) ->
  let n := (if v then 3 else 1)%nat in let s := rshape g in
  computes n s k0 (construct eps g k0 v epsilon tzero tzero (tuniform (RtoC m)) settled kappa S) E ->
  computes n s k0 (construct eps g k0 v (mirrored_tensor axis s epsilon) tzero tzero (tuniform (RtoC m)) settled' kappa' (mirrored v axis s S)) (mirrored v axis s E).
Proof.
  intros L O n s H. rewrite !mirrored_moved, (mirrored_tensor_moved v) by apply L. pose proof L as (_ & _ & _ & _ & (Hg & _ & Hd) & _).
  apply (computes_moved v g g (opposite axis s) (fun c => c) (mirror_sign v axis)) with (loss := loss) (settled := settled) (kappa := kappa); try assumption.
  - intros p. apply opposite_inside.
  - apply opposite_sum.
  - reflexivity.
  - apply opposite_phase.
  - auto.
  - intros c. unfold mirror_sign. destruct (v && (c =? axis))%bool; ring.
  - reflexivity.
  - intros e. split; apply Hd, e.
  - intros e k i j Hk _ _. subst v. apply mirror_products; auto.
  - intros _ k Hk. symmetry. apply k2_opposite, Hk.
  - reflexivity.
Qed.
Lemma mirror_symmetric_proof eps g k0 v epsilon m loss settled kappa axis S E : lossy_problem eps g k0 v epsilon m loss -> (v = true -> Nat.odd (nth axis (rshape g) 1%nat) = true \/ (rndim g <= 1)%nat) ->
  let n := (if v then 3 else 1)%nat in let s := rshape g in mirrored_tensor axis s epsilon = epsilon -> mirrored v axis s S = S ->
  computes n s k0 (construct eps g k0 v epsilon tzero tzero (tuniform (RtoC m)) settled kappa S) E -> vagree n s (mirrored v axis s E) E.
Proof.
  intros L O n s Ht Hs H. pose proof (mirror_proof eps g k0 v epsilon m loss settled settled kappa kappa axis S E L O H) as H'. cbv zeta in H'. fold n s in H'. rewrite Ht, Hs in H'.
  exact (limits_agree n s k0 _ _ _ (H' (fun _ _ => 0)) (H (fun _ _ => 0))).
Qed.

(** ** The order of the axes *)
Lemma exchange_inside axis : forall s p, inside s p -> inside (exchange axis s) (exchange axis p).
Proof.
  induction axis as [|a IH]; intros s p H; inversion H as [|n j s' p' Hj Hp]; subst; cbn [exchange]; try exact H.
  - inversion Hp as [|n2 j2 s2 p2 Hj2 Hp2]; subst; [exact H|]. constructor; [exact Hj2|]. constructor; assumption.
  - constructor; [exact Hj|apply IH, Hp].
Qed.
Lemma exchange_exchange {A} axis : forall l : list A, exchange axis (exchange axis l) = l.
Proof. induction axis as [|a IH]; intros [|x l]; cbn [exchange]; try reflexivity; [destruct l; reflexivity|f_equal; apply IH]. Qed.
Lemma exchange_length {A} axis : forall l : list A, length (exchange axis l) = length l.
Proof. induction axis as [|a IH]; intros [|x l]; cbn [exchange length]; try reflexivity; [destruct l; reflexivity|f_equal; apply IH]. Qed.
Lemma exchange_Forall {A} (Q : A -> Prop) axis : forall l, List.Forall Q l -> List.Forall Q (exchange axis l).
Proof.
  induction axis as [|a IH]; intros l H; inversion H as [|x l' Hx Hl]; subst; cbn [exchange]; try exact H; [|constructor; [exact Hx|apply IH, Hl]].
  inversion Hl as [|y l2 Hy Hl2]; subst; [exact H|]. constructor; [exact Hy|]. constructor; assumption.
Qed.
Lemma exchange_sum axis : forall s F, sum_over (exchange axis s) (fun p => F (exchange axis p)) = sum_over s F.
Proof.
  induction axis as [|a IH]; intros [|n s] F; cbn [exchange sum_over]; try reflexivity.
  - destruct s as [|n2 s]; cbn [sum_over]; [apply csum_ext; intros i _; reflexivity|]. rewrite csum_swap. apply csum_ext. intros i _. apply csum_ext. intros j _. reflexivity.
  - apply csum_ext. intros i _. apply (IH s (fun p => F (i :: p))).
Qed.
Lemma exchange_points axis : forall s, points (exchange axis s) = points s.
Proof.
  induction axis as [|a IH]; intros [|n s]; cbn [exchange]; try reflexivity; [destruct s as [|n2 s]; [reflexivity|]; unfold points; cbn [fold_right]; lia|].
  unfold points in *. cbn [fold_right]. rewrite IH. reflexivity.
Qed.
Lemma exchange_phase axis : forall s j k, inside s j -> inside s k -> phase (exchange axis s) (exchange axis j) (exchange axis k) = phase s j k.
Proof.
  induction axis as [|a IH]; intros s j k Hj Hk; inversion Hj as [|n x s' j' Hx Hj']; subst; try reflexivity; inversion Hk as [|? y ? k' Hy Hk']; subst; cbn [exchange phase].
  - inversion Hj' as [|n2 x2 s2 j2 Hx2 Hj2]; subst; [inversion Hk'; reflexivity|]. inversion Hk' as [|? y2 ? k2 Hy2 Hk2]; subst. cbn [phase]. ring.
  - rewrite IH by assumption. reflexivity.
Qed.
Lemma exchange_nth {A} (d : A) axis : forall l i, (Datatypes.S axis < length l)%nat -> nth i (exchange axis l) d = nth (exchange_index axis i) l d.
Proof.
  induction axis as [|a IH]; intros [|x l] i H; cbn [length] in H; try lia.
  - destruct l as [|y l]; [cbn in H; lia|]. unfold exchange_index. destruct i as [|[|i]]; reflexivity.
  - cbn [exchange]. destruct i as [|i]; [reflexivity|]. cbn [nth]. rewrite IH by lia. unfold exchange_index. change (Datatypes.S i =? Datatypes.S a) with (i =? a). change (Datatypes.S i =? Datatypes.S (Datatypes.S a)) with (i =? Datatypes.S a).
    destruct (i =? a); [reflexivity|]. destruct (i =? Datatypes.S a); reflexivity.
Qed.
Lemma exchange_index_twice axis i : exchange_index axis (exchange_index axis i) = i.
Proof.
  unfold exchange_index. destruct (Nat.eqb_spec i axis); [|destruct (Nat.eqb_spec i (Datatypes.S axis))]; repeat match goal with |- context [Nat.eqb ?a ?b] => destruct (Nat.eqb_spec a b) end; lia.
Qed.
Lemma exchange_index_less axis i n : (Datatypes.S axis < n)%nat -> (exchange_index axis i < n <-> i < n)%nat.
Proof. intros H. unfold exchange_index. repeat match goal with |- context [Nat.eqb ?a ?b] => destruct (Nat.eqb_spec a b) end; lia. Qed.
Lemma exchanged_ndim axis g : rndim (exchanged_grid axis g) = rndim g.
Proof. unfold rndim, exchanged_grid. cbn [rshape]. apply exchange_length. Qed.
Lemma exchanged_proper axis g : proper g -> proper (exchanged_grid axis g).
Proof. intros (H1 & H2 & H3). unfold exchanged_grid. refine (conj _ (conj _ _)); cbn [rshape rstep]; [rewrite !exchange_length; exact H1|apply exchange_Forall, H2|apply exchange_Forall, H3]. Qed.
Lemma exchanged_kvec axis g k i : proper g -> inside (rshape g) k -> (Datatypes.S axis < rndim g)%nat -> kvec (exchanged_grid axis g) i (exchange axis k) = kvec g (exchange_index axis i) k.
Proof.
  intros (Hl & _) Hk Ha. unfold kvec, exchanged_grid. cbn [rshape rstep]. unfold rndim in Ha. rewrite !exchange_nth; [reflexivity|rewrite (inside_length _ _ Hk); exact Ha|rewrite Hl; exact Ha|exact Ha].
Qed.
Lemma exchanged_wavevector axis g k i : proper g -> inside (rshape g) k -> (Datatypes.S axis < rndim g)%nat -> wavevector (exchanged_grid axis g) (exchange axis k) i = wavevector g k (exchange_index axis i).
Proof.
  intros Hg Hk Ha. unfold wavevector. rewrite exchanged_ndim, exchanged_kvec by assumption. pose proof (exchange_index_less axis i (rndim g) Ha) as Q.
  destruct (Nat.ltb_spec i (rndim g)), (Nat.ltb_spec (exchange_index axis i) (rndim g)); try reflexivity; lia.
Qed.
Lemma rsum_exchange axis : forall n (f : nat -> R), (Datatypes.S axis < n)%nat -> rsum n (fun i => f (exchange_index axis i)) = rsum n f.
Proof.
  assert (Q : forall m (f : nat -> R), (m <= axis)%nat -> rsum m (fun i => f (exchange_index axis i)) = rsum m f).
  { intros m f Hm. apply rsum_ext. intros i Hi. f_equal. unfold exchange_index. destruct (Nat.eqb_spec i axis); [lia|]. destruct (Nat.eqb_spec i (Datatypes.S axis)); [lia|reflexivity]. }
  induction n as [|n IH]; intros f H; [lia|]. destruct (Nat.eq_dec n (Datatypes.S axis)) as [->|E].
  - cbn [rsum]. rewrite Q by lia. unfold exchange_index. rewrite Nat.eqb_refl, Nat.eqb_refl. destruct (Nat.eqb_spec (Datatypes.S axis) axis); [lia|]. ring.
  - cbn [rsum]. rewrite IH by lia. f_equal. f_equal. unfold exchange_index. destruct (Nat.eqb_spec n axis); [lia|]. destruct (Nat.eqb_spec n (Datatypes.S axis)); [lia|reflexivity].
Qed.
Lemma exchanged_k2 axis g k : proper g -> inside (rshape g) k -> (Datatypes.S axis < rndim g)%nat -> k2 (exchanged_grid axis g) (exchange axis k) = k2 g k.
Proof.
  intros Hg Hk Ha. unfold k2. rewrite exchanged_ndim. rewrite <- (rsum_exchange axis (rndim g) (fun i => (kvec g i k * kvec g i k)%R) Ha). apply rsum_ext. intros i _. rewrite exchanged_kvec by assumption. reflexivity.
Qed.
Definition swap (v : bool) (axis c : nat) : nat := if v then exchange_index axis c else c.
Lemma exchanged_moved v axis F : exchanged v axis F = moved (exchange axis) (swap v axis) (fun _ => 1%R) F.
Proof. apply functional_extensionality. intros c. apply functional_extensionality. intros p. unfold exchanged, moved, swap. ring. Qed.
Lemma exchanged_tensor_moved v axis t : fits v t -> exchanged_tensor axis t = moved_tensor (exchange axis) (swap v axis) (fun _ => 1%R) t.
Proof.
  destruct t as [f|m]; cbn [exchanged_tensor moved_tensor fits]; [reflexivity|]. intros ->. f_equal. apply functional_extensionality. intros i. apply functional_extensionality. intros j. apply functional_extensionality. intros p.
  rewrite RtoC_mult. unfold swap. ring.
Qed.
Lemma exchange_proof eps g k0 v epsilon m loss settled settled' kappa kappa' axis S E : lossy_problem eps g k0 v epsilon m loss -> (Datatypes.S axis < rndim g)%nat ->
  let n := (if v then 3 else 1)%nat in let g' := exchanged_grid axis g in
  computes n (rshape g) k0 (construct eps g k0 v epsilon tzero tzero (tuniform (RtoC m)) settled kappa S) E ->
  computes n (rshape g') k0 (construct eps g' k0 v (exchanged_tensor axis epsilon) tzero tzero (tuniform (RtoC m)) settled' kappa' (exchanged v axis S)) (exchanged v axis E).
Proof.
  intros L Ha n g' H. rewrite !exchanged_moved, (exchanged_tensor_moved v) by apply L. pose proof L as (_ & _ & _ & _ & (Hg & _ & Hd) & _).
  assert (Back : forall p, inside (rshape g') p -> inside (rshape g) (exchange axis p)) by (intros p Hp; apply (exchange_inside axis) in Hp; unfold g', exchanged_grid in Hp; cbn [rshape] in Hp; rewrite exchange_exchange in Hp; exact Hp).
  apply (computes_moved v g g' (exchange axis) (swap v axis) (fun _ => 1%R)) with (loss := loss) (settled := settled) (kappa := kappa); try assumption.
  - intros F. apply exchange_sum.
  - apply exchange_points.
  - intros j k Hj Hk. f_equal. rewrite <- (exchange_phase axis (rshape g') j k Hj Hk). unfold g', exchanged_grid. cbn [rshape]. rewrite exchange_exchange. reflexivity.
  - intros c Hc. unfold swap. destruct v; [|exact Hc]. specialize (Hd eq_refl). unfold exchange_index. destruct (Nat.eqb_spec c axis); [lia|]. destruct (Nat.eqb_spec c (Datatypes.S axis)); lia.
  - intros _. ring.
  - intros f. unfold swap. destruct v; [|reflexivity]. specialize (Hd eq_refl). assert (axis = 0 \/ axis = 1)%nat as [->| ->] by lia; cbn; ring.
  - intros e. unfold g'. rewrite exchanged_ndim. split; apply Hd, e.
  - intros e k i j Hk _ _. subst v. pose proof (Back k Hk) as Hb. unfold swap. rewrite <- !exchanged_wavevector by assumption. rewrite exchange_exchange. fold g'. ring.
  - intros _ k Hk. pose proof (Back k Hk) as Hb. rewrite <- (exchanged_k2 axis g) by assumption. rewrite exchange_exchange. reflexivity.
  - intros c. unfold swap. destruct v; [apply exchange_index_twice|reflexivity].
  - apply exchanged_proper, Hg.
Qed.

(** ** Not for a mirror perpendicular to an axis with an even number of points *)
Lemma mirror_two p : inside [2; 3]%nat p -> opposite 0 [2; 3]%nat p = p.
Proof. intros H. inversion H as [|? i ? q Hi Hq]; subst. cbn [opposite]. f_equal. destruct i as [|[|i]]; [reflexivity|reflexivity|lia]. Qed.
Definition wave_source (k0 : R) (e : C) : vfield := fun c p => curl_curl_op true two_three wave1 c p - RtoC (k0 * k0) * (e * wave1 c p).
Lemma wave_source_equation k0 e : wave_equation true two_three k0 1 (tuniform e) wave1 (wave_source k0 e).
Proof. intros c p Hc Hp. unfold wave_source. cbn [tuniform tapply]. ring. Qed.
Lemma mirror_fails k0 e : ~ wave_equation true two_three k0 1 (mirrored_tensor 0 [2; 3]%nat (tuniform e)) (mirrored true 0 [2; 3]%nat wave1) (mirrored true 0 [2; 3]%nat (wave_source k0 e)).
Proof.
  intros W. assert (H0 : inside [2; 3]%nat [0; 0]%nat) by (repeat constructor; lia). specialize (W 1%nat [0; 0]%nat (le_S _ _ (le_n 2)) H0).
  assert (M : vagree 3 [2; 3]%nat (mirrored true 0 [2; 3]%nat wave1) (fun c p => - wave1 c p)).
  { intros c p Hc Hp. unfold mirrored. rewrite mirror_two by exact Hp. cbn [andb]. destruct (Nat.eqb_spec c 0) as [->|Ec]; [reflexivity|]. unfold wave1, along. destruct (Nat.eqb_spec c 0); [contradiction|]. ring. }
  unfold curl_curl_op in W. rewrite (curl_vagree two_three _ _ ltac:(cbn; lia) (curl_vagree two_three _ _ ltac:(cbn; lia) M) 1%nat [0; 0]%nat ltac:(lia) H0) in W.
  assert (W1 : vagree 3 [2; 3]%nat (curl two_three 3 (curl two_three 3 wave1)) _) by exact (curl_curl_wave two_three (along 0) [1; 1]%nat two_three_proper ltac:(cbn; lia) ltac:(repeat constructor; lia)).
  assert (W2 : vagree 3 [2; 3]%nat (curl two_three 3 (curl two_three 3 (fun c p => (- along 0 c) * plane_wave two_three [1; 1]%nat p))) _) by exact (curl_curl_wave two_three (fun c => - along 0 c) [1; 1]%nat two_three_proper ltac:(cbn; lia) ltac:(repeat constructor; lia)).
  rewrite (curl_vagree two_three _ (curl two_three 3 (fun c p => (- along 0 c) * plane_wave two_three [1; 1]%nat p)) ltac:(cbn; lia)) in W; [|apply curl_vagree; [cbn; lia|]; intros c p _ _; unfold wave1; ring|lia|exact H0].
  rewrite (W2 1%nat [0; 0]%nat ltac:(lia) H0) in W. cbn [mirrored_tensor tuniform tapply] in W. rewrite (M 1%nat [0; 0]%nat ltac:(lia) H0) in W. unfold mirrored in W. cbn [andb Nat.eqb] in W. rewrite mirror_two in W by exact H0.
  unfold wave_source, curl_curl_op in W. rewrite (W1 1%nat [0; 0]%nat ltac:(lia) H0) in W. destruct two_three_k1 as [A1 A2].
  unfold cross3, along, wave1 in W. cbn [Nat.eqb] in W. unfold along in W. cbn [Nat.eqb] in W. rewrite A1, A2 in W. set (w := plane_wave two_three [1; 1]%nat [0; 0]%nat) in W.
  assert (Z : RtoC (2 * (PI * (2 * PI / 3))) * w = 0).
  { match type of W with ?x = ?y => transitivity (y - x); [|rewrite W; ring] end. rewrite !RtoC_mult, !RtoC_opp. replace (RtoC 2) with (1 + 1) by (rewrite <- RtoC_plus; f_equal; ring). ring. }
  apply (f_equal Cmod) in Z. rewrite Cmod_mult, Cmod_R, Cmod_0 in Z. unfold w in Z. rewrite plane_wave_phase in Z by (try exact two_three_proper; try (repeat constructor; lia); exact H0). rewrite cis_mod, Rmult_1_r in Z.
  pose proof PI_RGT_0. rewrite Rabs_right in Z by (apply Rle_ge; nra). nra.
Qed.
Lemma mirror_refuted_proof eps k0 (e : C) settled settled' kappa kappa' : (0 < eps)%R -> (800 * sqrt eps < 1)%R -> k0 <> 0%R -> (0 < snd e)%R ->
  let g := {| rshape := [2; 3]%nat; rstep := [1; 1]%R |} in
  exists S E, computes 3 (rshape g) k0 (construct eps g k0 true (tuniform e) tzero tzero (tuniform 1) settled kappa S) E /\
    ~ computes 3 (rshape g) k0 (construct eps g k0 true (mirrored_tensor 0 (rshape g) (tuniform e)) tzero tzero (tuniform 1) settled' kappa' (mirrored true 0 (rshape g) S)) (mirrored true 0 (rshape g) E).
Proof.
  intros He H8 Hk Hi g. exists (wave_source k0 e), wave1. pose proof (even_lossy eps k0 e He H8 Hk Hi) as L. split.
  - apply (lossy_wave eps two_three k0 true (tuniform e) 1 (snd e) settled kappa _ _ L). rewrite Rinv_1. apply wave_source_equation.
  - intros H. change (mirrored_tensor 0 (rshape g) (tuniform e)) with (tuniform e) in H. apply (lossy_wave eps two_three k0 true (tuniform e) 1 (snd e) settled' kappa' _ _ L) in H. rewrite Rinv_1 in H. exact (mirror_fails k0 e H).
Qed.
