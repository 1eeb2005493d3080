(** Reciprocity: exchanging source and detector. *)
From Coq Require Import Reals Lra Lia List Arith Bool ZArith.
Require Import Verif.Base Verif.Cplx Verif.CSum Verif.Field Verif.Fourier_Model Verif.Fourier_Spec Verif.Fourier_Proofs.
Require Import Verif.Vec_Model Verif.Vec_Spec Verif.Vec_Proofs Verif.Solver_Model Verif.Solver_Spec Verif.Solver_Proofs Verif.Solver_Convergence Verif.Solver_Limit.
Require Import Verif.Shift_Moves Verif.Symmetry_Spec.
Import ListNotations.
Local Open Scope R_scope.
Local Open Scope C_scope.

(** The index of the opposite frequency. *)
Definition neg1 (n i : nat) : nat := if Nat.eqb i 0 then 0%nat else (n - i)%nat.
Fixpoint neg (s k : list nat) : list nat := match s, k with n :: s', i :: k' => neg1 n i :: neg s' k' | _, _ => [] end.
Lemma neg_inside s k : inside s k -> inside s (neg s k).
Proof. induction 1 as [|n i s k Hi Hk IH]; cbn; constructor; [|exact IH]. unfold neg1. destruct (Nat.eqb_spec i 0); lia. Qed.
Lemma neg_nth s : forall k i, inside s k -> (i < length s)%nat -> nth i (neg s k) 0%nat = neg1 (nth i s 1%nat) (nth i k 0%nat).
Proof.
  induction s as [|n s IH]; intros k i Hk Hi; [cbn in Hi; lia|]. inversion Hk as [|? j ? k' Hj Hk']; subst. destruct i as [|i]; [reflexivity|]. cbn [neg nth]. apply IH; [assumption|cbn in Hi; lia].
Qed.
Lemma sum_over_neg s : forall F, sum_over s (fun k => F (neg s k)) = sum_over s F.
Proof.
  induction s as [|n s IH]; intros F; [reflexivity|]. cbn [sum_over neg].
  rewrite <- (csum_mirror n (fun i => sum_over s (fun p => F (i :: p)))). apply csum_ext. intros i _. apply (IH (fun p => F (neg1 n i :: p))).
Qed.
Lemma cis_phase_neg s j k : inside s j -> inside s k -> cis (phase s j (neg s k)) = cis (- phase s j k).
Proof.
  intros Hj. revert k. induction Hj as [|n a s j Ha Hj IH]; intros k Hk; inversion Hk as [|? b ? k' Hb Hk']; subst; cbn [phase neg]; [f_equal; ring|].
  rewrite cis_plus, IH by assumption. rewrite Ropp_plus_distr, (cis_plus (- (2 * PI * _ / _))). f_equal. assert (0 < INR n)%R as Hn0 by (apply lt_0_INR; lia).
  unfold neg1. destruct (Nat.eqb_spec b 0) as [->|E]; [f_equal; cbn [INR]; field; lra|]. rewrite minus_INR by lia.
  replace (2 * PI * (INR a * (INR n - INR b)) / INR n)%R with (2 * PI * INR a + - (2 * PI * (INR a * INR b) / INR n))%R by (field; lra). rewrite cis_plus, cis_2PI_nat. ring.
Qed.
Lemma ft_conj s f k : inside s k -> ft s (fun p => Cconj (f p)) k = Cconj (ft s f (neg s k)).
Proof.
  intros Hk. unfold ft. rewrite sum_over_conj. apply sum_over_ext. intros j Hj. rewrite Cconj_mult, (cis_neg (phase s j (neg s k))), Cconj_conj, cis_phase_neg by assumption. reflexivity.
Qed.
Lemma ift_conj s F p : inside s p -> ift s (fun k => Cconj (F (neg s k))) p = Cconj (ift s F p).
Proof.
  intros Hp. unfold ift. rewrite Cconj_div, Cconj_R, sum_over_conj. f_equal. rewrite <- (sum_over_neg s (fun k => Cconj (F k * cis (phase s p k)))). apply sum_over_ext. intros k Hk.
  rewrite Cconj_mult, cis_phase_neg by assumption. rewrite cis_neg, Cconj_conj. reflexivity.
Qed.
Definition conjugated (F : vfield) : vfield := fun c p => Cconj (F c p).
Lemma convolve_conj s n op F : pointwise s n op -> (forall F c k, (c < n)%nat -> inside s k -> op (fun c k => Cconj (F c (neg s k))) c k = Cconj (op F c (neg s k))) ->
  vagree n s (convolve s op (conjugated F)) (conjugated (convolve s op F)).
Proof.
  intros Hpw H c p Hc Hp. unfold convolve, conjugated at 2, vift. rewrite <- (ift_conj s (op (vft s F) c) p Hp). apply ift_ext. intros k Hk. rewrite <- H by assumption. apply (Hpw _ _ k Hk); [|exact Hc].
  intros d Hd. unfold vft, conjugated. apply ft_conj. exact Hk.
Qed.

(** The products of two components of the wave vector are the same for opposite frequencies. *)
Definition even_products (g : raster) : Prop := forall k i j, inside (rshape g) k -> (wavevector g (neg (rshape g) k) i * wavevector g (neg (rshape g) k) j = wavevector g k i * wavevector g k j)%R.
Lemma kvec_neg g k i : inside (rshape g) k -> (i < rndim g)%nat -> Nat.odd (nth i (rshape g) 1%nat) = true -> kvec g i (neg (rshape g) k) = (- kvec g i k)%R.
Proof.
  intros Hk Hi O. unfold kvec. rewrite neg_nth by assumption. pose proof (inside_nth (rshape g) k i Hk Hi) as Hn. set (n := nth i (rshape g) 1%nat) in *. set (q := nth i k 0%nat) in *. unfold k_axis.
  assert (k_index n (neg1 n q) = - k_index n q)%Z as ->.
  { apply Nat.odd_spec in O as (m & Hm). unfold neg1, k_index. destruct (Nat.eqb_spec q 0) as [E|E]; [destruct (Nat.ltb_spec (2 * 0) n), (Nat.ltb_spec (2 * q) n)|destruct (Nat.ltb_spec (2 * (n - q)) n), (Nat.ltb_spec (2 * q) n)]; lia. }
  rewrite opp_IZR. unfold Rdiv. ring.
Qed.
Lemma kvec_neg_square g k i : inside (rshape g) k -> (i < rndim g)%nat -> (kvec g i (neg (rshape g) k) * kvec g i (neg (rshape g) k) = kvec g i k * kvec g i k)%R.
Proof.
  intros Hk Hi. unfold kvec. rewrite neg_nth by assumption. pose proof (inside_nth (rshape g) k i Hk Hi) as Hn. set (n := nth i (rshape g) 1%nat) in *. set (q := nth i k 0%nat) in *. unfold k_axis.
  assert (k_index n (neg1 n q) = - k_index n q \/ k_index n (neg1 n q) = k_index n q)%Z as [E|E].
  { unfold neg1, k_index. destruct (Nat.eqb_spec q 0) as [E|E]; [destruct (Nat.ltb_spec (2 * 0) n), (Nat.ltb_spec (2 * q) n)|destruct (Nat.ltb_spec (2 * (n - q)) n), (Nat.ltb_spec (2 * q) n)]; lia. }
  - rewrite E, opp_IZR. unfold Rdiv. ring.
  - rewrite E. ring.
Qed.
Lemma k2_neg g k : inside (rshape g) k -> k2 g (neg (rshape g) k) = k2 g k.
Proof. intros Hk. unfold k2. apply rsum_ext. intros i Hi. apply kvec_neg_square; assumption. Qed.
Lemma odd_even_products g : odd_sizes (rshape g) -> even_products g.
Proof.
  intros Ho k i j Hk. unfold wavevector.
  assert (O : forall i, (i < rndim g)%nat -> Nat.odd (nth i (rshape g) 1%nat) = true) by (intros l Hl; apply (proj1 (Forall_forall _ _) Ho); apply nth_In; exact Hl).
  destruct (Nat.ltb_spec i (rndim g)), (Nat.ltb_spec j (rndim g)); rewrite ?kvec_neg by auto; ring.
Qed.
Lemma one_even_products g : (rndim g <= 1)%nat -> even_products g.
Proof.
  intros Hn k i j Hk. unfold wavevector. destruct (Nat.ltb_spec i (rndim g)), (Nat.ltb_spec j (rndim g)); try ring. assert (i = j) as -> by lia. apply kvec_neg_square; assumption.
Qed.
Lemma curl_curl_products g F c p : (rndim g <= 3)%nat -> (c < 3)%nat -> let K i j := RtoC (wavevector g p i * wavevector g p j) in
  curl_ft g 3 3 (curl_ft g 3 3 F) c p = csum 3 (fun j => K j j) * F c p - csum 3 (fun j => K c j * F j p).
Proof.
  intros Hn Hc K. unfold K. rewrite curl_ft_cross by assumption. unfold cross3. cbn [csum].
  destruct c as [|[|[|c]]]; [| | |lia]; rewrite !curl_ft_cross by (assumption || lia); unfold cross3; rewrite !RtoC_mult;
    match goal with |- Ci * (?a * (Ci * ?x) - ?b * (Ci * ?y)) = _ => transitivity ((Ci * Ci) * (a * x - b * y)); [ring|rewrite Ci_sq; ring] end.
Qed.
Lemma curl_curl_conj v g F : (v = true -> (rndim g <= 3)%nat /\ even_products g) -> vagree (if v then 3 else 1) (rshape g) (curl_curl_op v g (conjugated F)) (conjugated (curl_curl_op v g F)).
Proof.
  intros Hv. unfold curl_curl_op. destruct v.
  - destruct (Hv eq_refl) as [Hn He]. intros c p Hc Hp. pose proof (curl_pointwise g Hn) as PW. unfold conjugated at 2. unfold curl. rewrite !(convolve_convolve (rshape g) 3 (curl_ft g 3 3) (curl_ft g 3 3) _ c p PW Hc).
    apply (convolve_conj (rshape g) 3 (fun F => curl_ft g 3 3 (curl_ft g 3 3 F)) F); try assumption.
    + intros F' G' k Hk H d Hd. apply (PW _ _ k Hk); [|exact Hd]. intros e He'. apply (PW _ _ k Hk H e He').
    + intros F' d k Hd Hk. rewrite !curl_curl_products by assumption. cbv zeta. rewrite Cconj_minus, Cconj_mult, !csum_conj. f_equal.
      * f_equal. apply csum_ext. intros j _. rewrite Cconj_R, He by exact Hk. reflexivity.
      * apply csum_ext. intros j _. rewrite Cconj_mult, Cconj_R, He by exact Hk. reflexivity.
  - intros c p Hc Hp. unfold conjugated at 2. rewrite Cconj_opp. f_equal. unfold laplacian. apply (convolve_conj (rshape g) 1 (fun F c k => RtoC (- k2 g k) * F c k) F); try assumption.
    + intros F' G' k Hk H d Hd. rewrite H by assumption. reflexivity.
    + intros F' d k Hd Hk. rewrite Cconj_mult, Cconj_R, k2_neg by assumption. reflexivity.
Qed.

Lemma product_vip n s F G : product n s F G = vip n s (conjugated F) G.
Proof. unfold product, vip, ip. apply csum_ext. intros c _. apply sum_over_ext. intros p _. unfold conjugated. rewrite Cconj_conj. reflexivity. Qed.
Lemma product_comm n s F G : product n s F G = product n s G F.
Proof. unfold product. apply csum_ext. intros c _. apply sum_over_ext. intros p _. ring. Qed.
Lemma curl_curl_self_adjoint v g F G : proper g -> (v = true -> (rndim g <= 3)%nat) -> let n := (if v then 3 else 1)%nat in
  vip n (rshape g) F (curl_curl_op v g G) = vip n (rshape g) (curl_curl_op v g F) G.
Proof.
  intros Hg Hn. unfold curl_curl_op. destruct v; cbv zeta.
  - rewrite !curl_self_adjoint by auto. reflexivity.
  - rewrite (vagree_vip 1 (rshape g) F _ F (fun c p => - (1) * laplacian g G c p)) by (intros c p _ _; ring). rewrite vip_scal_r.
    rewrite (vagree_vip 1 (rshape g) (fun c p => - laplacian g F c p) G (fun c p => - (1) * laplacian g F c p) G) by (intros c p _ _; ring).
    rewrite <- (vip_conj 1 (rshape g) G), vip_scal_r, Cconj_mult, vip_conj, Cconj_opp, Cconj_R. f_equal. unfold laplacian. apply convolve_adjoint; [apply Hg|].
    intros F' G' k Hk. apply csum_ext. intros c _. rewrite Cconj_mult, Cconj_R. ring.
Qed.
Lemma product_curl_curl v g F G : proper g -> (v = true -> (rndim g <= 3)%nat /\ even_products g) -> let n := (if v then 3 else 1)%nat in
  product n (rshape g) F (curl_curl_op v g G) = product n (rshape g) (curl_curl_op v g F) G.
Proof.
  intros Hg Hn n. rewrite !product_vip. pose proof (curl_curl_self_adjoint v g (conjugated F) G Hg (fun e => proj1 (Hn e))) as A. cbv zeta in A. fold n in A. rewrite A. apply vagree_vip; [|intros c p _ _; reflexivity].
  apply curl_curl_conj. exact Hn.
Qed.
Lemma product_points n s F G : product n s F G = sum_over s (fun p => csum n (fun c => F c p * G c p)).
Proof. rewrite product_vip, vip_points. apply sum_over_ext. intros p _. apply csum_ext. intros c _. unfold conjugated. rewrite Cconj_conj. reflexivity. Qed.
Lemma product_tensor v s t F G : fits v t -> symmetric s t -> let n := (if v then 3 else 1)%nat in product n s F (tapply t G) = product n s (tapply t F) G.
Proof.
  intros Hf Ht n. rewrite !product_points. apply sum_over_ext. intros p Hp. destruct t as [f|m]; cbn [tapply].
  - apply csum_ext. intros c _. ring.
  - unfold n. destruct v; [|discriminate Hf]. cbn [csum symmetric] in *. rewrite (Ht p 1%nat 0%nat), (Ht p 2%nat 0%nat), (Ht p 2%nat 1%nat) by (assumption || lia). ring.
Qed.
Lemma product_minus n s a b F G H : product n s F (fun c p => a * G c p - b * H c p) = a * product n s F G - b * product n s F H.
Proof. rewrite !product_vip, vip_minus_r, !vip_scal_r. reflexivity. Qed.
Lemma product_vagree n s F G F' G' : vagree n s F F' -> vagree n s G G' -> product n s F G = product n s F' G'.
Proof. intros H1 H2. unfold product. apply csum_ext. intros c Hc. apply sum_over_ext. intros p Hp. rewrite (H1 c p), (H2 c p) by assumption. reflexivity. Qed.
Lemma wave_reciprocity v g k0 beta epsilon E1 E2 S1 S2 : solvable v g k0 -> (v = true -> even_products g) -> fits v epsilon -> symmetric (rshape g) epsilon ->
  wave_equation v g k0 beta epsilon E1 S1 -> wave_equation v g k0 beta epsilon E2 S2 -> let n := (if v then 3 else 1)%nat in product n (rshape g) E1 S2 = product n (rshape g) E2 S1.
Proof.
  intros Hs He Hf Ht W1 W2 n. assert (Hn : v = true -> (rndim g <= 3)%nat /\ even_products g) by (intros e; split; [apply Hs, e|apply He, e]).
  rewrite <- (product_vagree n (rshape g) E1 _ E1 S2 (fun c p _ _ => eq_refl) W2), <- (product_vagree n (rshape g) E2 _ E2 S1 (fun c p _ _ => eq_refl) W1), !product_minus.
  f_equal; f_equal.
  - pose proof (product_curl_curl v g E1 E2 (proj1 Hs) Hn) as P. cbv zeta in P. fold n in P. rewrite P. apply product_comm.
  - pose proof (product_tensor v (rshape g) epsilon E1 E2 Hf Ht) as P. cbv zeta in P. fold n in P. rewrite P. apply product_comm.
Qed.

(** ** Not on grids with even sizes *)
Definition two_three : raster := {| rshape := [2; 3]%nat; rstep := [1; 1]%R |}.
Lemma two_three_proper : proper two_three.
Proof. repeat split; cbn; repeat constructor; lra || lia. Qed.
Definition along (axis : nat) (c : nat) : C := if Nat.eqb c axis then 1 else 0.
Definition wave1 : vfield := fun c p => along 0 c * plane_wave two_three [1; 1]%nat p.
Definition wave2 : vfield := fun c p => along 1 c * plane_wave two_three [1; 2]%nat p.
Lemma two_three_k1 : wavevector two_three [1; 1]%nat 0 = (- PI)%R /\ wavevector two_three [1; 1]%nat 1 = (2 * PI / 3)%R.
Proof. unfold wavevector, kvec, k_axis. cbn. split; field. Qed.
Lemma two_three_k2 : wavevector two_three [1; 2]%nat 0 = (- PI)%R /\ wavevector two_three [1; 2]%nat 1 = (- (2 * PI / 3))%R.
Proof. unfold wavevector, kvec, k_axis. cbn. split; field. Qed.
Lemma curl_curl_wave g (a : nat -> C) m : proper g -> (rndim g <= 3)%nat -> inside (rshape g) m ->
  vagree 3 (rshape g) (curl g 3 (curl g 3 (fun c p => a c * plane_wave g m p))) (fun c p => - cross3 (fun i => RtoC (wavevector g m i)) (cross3 (fun i => RtoC (wavevector g m i)) a) c * plane_wave g m p).
Proof.
  intros Hg Hn Hm c p Hc Hp. rewrite (curl_vagree g _ _ Hn (curl_plane_wave g a m Hg Hn Hm) c p Hc Hp).
  rewrite (curl_plane_wave g (fun c => Ci * cross3 (fun i => RtoC (wavevector g m i)) a c) m Hg Hn Hm c p Hc Hp). f_equal.
  transitivity ((Ci * Ci) * cross3 (fun i => RtoC (wavevector g m i)) (cross3 (fun i => RtoC (wavevector g m i)) a) c); [unfold cross3; destruct c as [|[|c]]; ring|]. rewrite Ci_sq. ring.
Qed.
Lemma opposite_waves p : inside [2; 3]%nat p -> plane_wave two_three [1; 1]%nat p * plane_wave two_three [1; 2]%nat p = 1.
Proof.
  intros Hp. rewrite !(plane_wave_phase two_three) by (try exact two_three_proper; try (repeat constructor; lia); assumption). rewrite (phase_sym _ [1; 1]%nat p), (phase_sym _ [1; 2]%nat p) || idtac.
  rewrite <- cis_plus. inversion Hp as [|? i ? q Hi Hq]; subst. inversion Hq as [|? j ? r Hj Hr]; subst. inversion Hr; subst. cbn [phase rshape two_three].
  match goal with |- cis ?x = _ => replace x with (2 * PI * INR (i + j))%R end; [apply cis_2PI_nat|]. rewrite plus_INR. cbn [INR]. field.
Qed.
Lemma even_grid_not_reciprocal : let L := curl_curl_op true two_three in product 3 [2; 3]%nat wave1 (L wave2) <> product 3 [2; 3]%nat wave2 (L wave1).
Proof.
  intros L. unfold L, curl_curl_op.
  assert (W2 : vagree 3 [2; 3]%nat (curl two_three 3 (curl two_three 3 wave2)) _) by exact (curl_curl_wave two_three (along 1) [1; 2]%nat two_three_proper ltac:(cbn; lia) ltac:(repeat constructor; lia)).
  assert (W1 : vagree 3 [2; 3]%nat (curl two_three 3 (curl two_three 3 wave1)) _) by exact (curl_curl_wave two_three (along 0) [1; 1]%nat two_three_proper ltac:(cbn; lia) ltac:(repeat constructor; lia)).
  rewrite (product_vagree 3 [2; 3]%nat wave1 _ wave1 _ (fun _ _ _ _ => eq_refl) W2), (product_vagree 3 [2; 3]%nat wave2 _ wave2 _ (fun _ _ _ _ => eq_refl) W1).
  rewrite !product_points. destruct two_three_k1 as [A1 A2], two_three_k2 as [B1 B2].
  rewrite (sum_over_ext [2; 3]%nat _ (fun _ => RtoC (- (2 * PI * PI / 3)))).
  - rewrite (sum_over_ext [2; 3]%nat (fun p => csum 3 (fun c => wave2 c p * _)) (fun _ => RtoC (2 * PI * PI / 3))).
    + rewrite !sum_over_const. cbn [fold_right]. intros H. rewrite <- !RtoC_mult in H. apply RtoC_inj in H. pose proof PI_RGT_0. cbn [INR Nat.mul Nat.add] in H. nra.
    + intros p Hp. unfold wave2. cbn [csum cross3 along Nat.eqb]. rewrite A1, A2. unfold along. cbn [Nat.eqb].
      transitivity (- (RtoC (- PI) * RtoC (2 * PI / 3)) * (plane_wave two_three [1; 1]%nat p * plane_wave two_three [1; 2]%nat p)); [ring|]. rewrite opposite_waves by exact Hp. rewrite <- RtoC_mult, <- RtoC_opp, Cmult_1_r. f_equal. field.
  - intros p Hp. unfold wave1. cbn [csum cross3 along Nat.eqb]. rewrite B1, B2. unfold along. cbn [Nat.eqb].
    transitivity (- (RtoC (- PI) * RtoC (- (2 * PI / 3))) * (plane_wave two_three [1; 1]%nat p * plane_wave two_three [1; 2]%nat p)); [ring|]. rewrite opposite_waves by exact Hp. rewrite <- RtoC_mult, <- RtoC_opp, Cmult_1_r. f_equal. field.
Qed.
Lemma even_grid_counterexample k0 e : exists E1 E2 S1 S2,
  wave_equation true two_three k0 1 (tuniform e) E1 S1 /\ wave_equation true two_three k0 1 (tuniform e) E2 S2 /\ product 3 (rshape two_three) E1 S2 <> product 3 (rshape two_three) E2 S1.
Proof.
  set (src := fun E c p => RtoC 1 * curl_curl_op true two_three E c p - RtoC (k0 * k0) * tapply (tuniform e) E c p).
  exists wave1, wave2, (src wave1), (src wave2). split; [intros c p _ _; reflexivity|]. split; [intros c p _ _; reflexivity|]. unfold src. rewrite !product_minus. intros H. apply even_grid_not_reciprocal. cbv zeta.
  assert (P : product 3 (rshape two_three) wave1 (tapply (tuniform e) wave2) = product 3 (rshape two_three) wave2 (tapply (tuniform e) wave1)).
  { pose proof (product_tensor true (rshape two_three) (tuniform e) wave1 wave2 I I) as P. cbv zeta in P. rewrite P. apply product_comm. }
  rewrite P in H. change (rshape two_three) with [2; 3]%nat in H. set (z := RtoC (k0 * k0) * product 3 [2; 3]%nat wave2 (tapply (tuniform e) wave1)) in *. set (x := product 3 [2; 3]%nat wave1 _) in *. set (y := product 3 [2; 3]%nat wave2 (curl_curl_op true two_three wave1)) in *.
  transitivity (1 * x - z + z); [ring|]. rewrite H. ring.
Qed.
