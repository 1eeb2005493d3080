(** Proofs about the vector calculus of the back-ends. *)
From Coq Require Import Reals Lra Lia List Arith Bool ZArith.
Require Import Verif.Base Verif.Cplx Verif.CSum Verif.Field Verif.Fourier_Model Verif.Fourier_Spec Verif.Fourier_Proofs.
Require Import Verif.Vec_Model Verif.Vec_Spec.
Import ListNotations.
Local Open Scope R_scope.
Local Open Scope C_scope.

(** ** The wave vectors *)
Lemma k_axis_0 n st : (0 < n)%nat -> k_axis n st 0 = 0%R.
Proof. intros H. unfold k_axis, k_index. cbn. destruct n; [lia|]. cbn. unfold Rdiv. ring. Qed.
Lemma k_axis_nonzero n st j : (0 < j < n)%nat -> st <> 0%R -> k_axis n st j <> 0%R.
Proof.
  intros H Hst E. unfold k_axis in E. assert (0 < INR n)%R by (apply lt_0_INR; lia). pose proof PI_RGT_0.
  assert (IZR (k_index n j) <> 0%R) as Hk.
  { intros E'. apply eq_IZR in E'. unfold k_index in E'. destruct (Nat.ltb (2 * j) n); lia. }
  apply Rmult_integral in E. destruct E as [E|E].
  - apply Rmult_integral in E. destruct E; lra.
  - apply Rinv_neq_0_compat in E; [assumption|]. apply Rmult_integral_contrapositive. split; [lra|assumption].
Qed.

Lemma inside_nth s p i : inside s p -> (i < length s)%nat -> (nth i p 0 < nth i s 1)%nat.
Proof.
  intros H. revert i. induction H; intros [|i] Hi; cbn in *; try lia. apply IHForall2. lia.
Qed.
Lemma inside_length s p : inside s p -> length p = length s.
Proof. induction 1; cbn; congruence. Qed.

Lemma k2_nonneg g p : (0 <= k2 g p)%R.
Proof. apply rsum_nonneg. intros i _. nra. Qed.

Lemma k2_zero g p : proper g -> inside (rshape g) p -> k2 g p = 0%R -> is_origin p = true.
Proof.
  intros (Hl & Hn & Hs) Hp H. unfold is_origin. apply forallb_forall. intros x Hx.
  destruct (In_nth _ _ 0%nat Hx) as (i & Hi & <-). rewrite (inside_length _ _ Hp) in Hi.
  assert (kvec g i p * kvec g i p = 0)%R as H0.
  { apply (rsum_nonneg_zero (rndim g) (fun i => (kvec g i p * kvec g i p)%R)); [intros; nra|exact H|exact Hi]. }
  assert (kvec g i p = 0)%R as H1 by nra. clear H0. unfold kvec in H1.
  apply Nat.eqb_eq. destruct (Nat.eq_dec (nth i p 0%nat) 0) as [E|E]; [congruence|]. exfalso.
  pose proof (inside_nth _ _ i Hp Hi).
  apply (k_axis_nonzero (nth i (rshape g) 1%nat) (nth i (rstep g) 1%R) (nth i p 0%nat)); [lia| |exact H1].
  assert (In (nth i (rstep g) 1%R) (rstep g)) as Hin by (apply nth_In; lia).
  rewrite Forall_forall in Hs. apply (Hs _ Hin).
Qed.
Lemma kvec_origin g p i : proper g -> inside (rshape g) p -> (i < rndim g)%nat -> is_origin p = true -> kvec g i p = 0%R.
Proof.
  intros (Hl & Hn & Hs) Hp Hi H. unfold kvec.
  assert (nth i p 0%nat = 0%nat) as ->.
  { unfold is_origin in H. rewrite forallb_forall in H.
    assert (In (nth i p 0%nat) p) as Hin by (apply nth_In; rewrite (inside_length _ _ Hp); exact Hi).
    apply H, Nat.eqb_eq in Hin. congruence. }
  apply k_axis_0. pose proof (inside_nth _ _ i Hp Hi). lia.
Qed.
Lemma k2_origin g p : proper g -> inside (rshape g) p -> is_origin p = true -> k2 g p = 0%R.
Proof.
  intros Hg Hp H. unfold k2. rewrite (rsum_ext _ _ (fun _ => (0 * 0)%R)).
  - rewrite rsum_scal. ring.
  - intros i Hi. rewrite kvec_origin by assumption. ring.
Qed.

(** ** Convolutions compose *)
Lemma vft_convolve g op F c p : inside (rshape g) p -> vft (rshape g) (convolve (rshape g) op F) c p = op (vft (rshape g) F) c p.
Proof. intros Hp. unfold vft at 1. unfold convolve, vift. apply ft_ift. assumption. Qed.

(** An operation in Fourier space that treats every wave vector by itself. *)
Definition pointwise (s : list nat) (n : nat) (op : vfield -> vfield) : Prop :=
  forall F G p, inside s p -> (forall c, (c < n)%nat -> F c p = G c p) -> forall c, (c < n)%nat -> op F c p = op G c p.

Lemma convolve_convolve s n op1 op2 F c p : pointwise s n op2 -> (c < n)%nat ->
  convolve s op2 (convolve s op1 F) c p = convolve s (fun F => op2 (op1 F)) F c p.
Proof.
  intros Hpw Hc. unfold convolve at 1 3. unfold vift. apply ift_ext. intros k Hk. apply (Hpw _ _ k Hk); [|assumption].
  intros d Hd. unfold vft at 1. unfold convolve, vift. apply ft_ift. assumption.
Qed.
Lemma convolve_ext s op1 op2 F c p : (forall k, inside s k -> op1 (vft s F) c k = op2 (vft s F) c k) ->
  convolve s op1 F c p = convolve s op2 F c p.
Proof. intros H. unfold convolve, vift. apply ift_ext. exact H. Qed.

(** ** Components of the curl: for vector length 3 it is i k x F *)
Lemma curl_ft_cross g F c p : (rndim g <= 3)%nat -> (c < 3)%nat ->
  curl_ft g 3 3 F c p = Ci * cross3 (fun i => RtoC (wavevector g p i)) (fun i => F i p) c.
Proof.
  intros Hn Hc. unfold curl_ft, cross3, wavevector. destruct c as [|[|[|c]]]; [| | |lia]; cbv zeta;
    [change ((0 + 3 - 1) mod 3)%nat with 2%nat; change ((0 + 1) mod 3)%nat with 1%nat
    |change ((1 + 3 - 1) mod 3)%nat with 0%nat; change ((1 + 1) mod 3)%nat with 2%nat
    |change ((2 + 3 - 1) mod 3)%nat with 1%nat; change ((2 + 1) mod 3)%nat with 0%nat];
    change (Nat.ltb 0 3) with true; change (Nat.ltb 1 3) with true; change (Nat.ltb 2 3) with true; cbn [andb];
    destruct (Nat.ltb 0 (rndim g)), (Nat.ltb 1 (rndim g)), (Nat.ltb 2 (rndim g)); ring.
Qed.

Lemma csum_ndim3 g (f : nat -> C) : (rndim g <= 3)%nat -> (forall i, (rndim g <= i)%nat -> f i = 0) ->
  csum (rndim g) f = f 0%nat + f 1%nat + f 2%nat.
Proof.
  intros Hn Hf. destruct (rndim g) as [|[|[|[|n]]]]; cbn [csum]; [| | | |lia]; rewrite ?(Hf 0%nat), ?(Hf 1%nat), ?(Hf 2%nat) by lia; ring.
Qed.
Lemma csum_k_dot g (a : nat -> C) p : (rndim g <= 3)%nat ->
  csum (rndim g) (fun i => RtoC (kvec g i p) * a i) = dot3 (fun i => RtoC (wavevector g p i)) a.
Proof.
  intros Hn. rewrite (csum_ext _ _ (fun i => RtoC (wavevector g p i) * a i)).
  - apply csum_ndim3; [assumption|]. intros i Hi. unfold wavevector. destruct (Nat.ltb_spec i (rndim g)); [lia|ring].
  - intros i Hi. unfold wavevector. destruct (Nat.ltb_spec i (rndim g)); [reflexivity|lia].
Qed.
Lemma k2_wavevector g p : (rndim g <= 3)%nat ->
  k2 g p = (wavevector g p 0 * wavevector g p 0 + wavevector g p 1 * wavevector g p 1 + wavevector g p 2 * wavevector g p 2)%R.
Proof.
  intros Hn. unfold k2, wavevector. destruct (rndim g) as [|[|[|[|n]]]]; cbn; [| | | |lia]; ring.
Qed.
Lemma wavevector_origin g p i : proper g -> inside (rshape g) p -> is_origin p = true -> wavevector g p i = 0%R.
Proof. intros Hg Hp H. unfold wavevector. destruct (Nat.ltb_spec i (rndim g)); [apply kvec_origin; assumption|reflexivity]. Qed.

Lemma longitudinal_ft_wavevector g F c p : (rndim g <= 3)%nat -> is_origin p = false ->
  longitudinal_ft g F c p = RtoC (wavevector g p c) * (dot3 (fun i => RtoC (wavevector g p i)) (fun i => F i p) / RtoC (k2 g p)).
Proof.
  intros Hn Ho. unfold longitudinal_ft. rewrite Ho, csum_k_dot by assumption. unfold wavevector at 2.
  destruct (Nat.ltb c (rndim g)); [reflexivity|ring].
Qed.

(** ** Divergence, curl and projections in Fourier space *)
Lemma k2_neq0 g p : proper g -> inside (rshape g) p -> is_origin p = false -> RtoC (k2 g p) <> 0.
Proof. intros Hg Hp Ho E. apply RtoC_inj in E. apply (k2_zero _ _ Hg Hp) in E. congruence. Qed.

Lemma div_curl_ft g F p : (rndim g <= 3)%nat -> csum (rndim g) (fun d => Ci * RtoC (kvec g d p) * curl_ft g 3 3 F d p) = 0.
Proof.
  intros Hn. rewrite (csum_ext _ _ (fun d => Ci * (RtoC (kvec g d p) * curl_ft g 3 3 F d p))) by (intros; ring).
  rewrite csum_scal, (csum_k_dot g (fun d => curl_ft g 3 3 F d p)) by assumption. unfold dot3.
  rewrite !curl_ft_cross by (assumption || lia). cbn [cross3]. ring.
Qed.

Lemma curl_curl_ft g F c p : proper g -> (rndim g <= 3)%nat -> inside (rshape g) p -> (c < 3)%nat ->
  curl_ft g 3 3 (curl_ft g 3 3 F) c p = RtoC (k2 g p) * transversal_ft g F c p.
Proof.
  intros Hg Hn Hp Hc. rewrite curl_ft_cross by assumption. unfold transversal_ft.
  destruct (is_origin p) eqn:Ho.
  - rewrite k2_origin by assumption. unfold cross3. rewrite !wavevector_origin by assumption. destruct c as [|[|c]]; ring.
  - pose proof (k2_neq0 _ _ Hg Hp Ho) as Hk. rewrite longitudinal_ft_wavevector by assumption.
    assert (RtoC (k2 g p) = RtoC (wavevector g p 0) * RtoC (wavevector g p 0) + RtoC (wavevector g p 1) * RtoC (wavevector g p 1)
              + RtoC (wavevector g p 2) * RtoC (wavevector g p 2)) as Ek.
    { rewrite k2_wavevector by assumption. rewrite !RtoC_plus, !RtoC_mult. reflexivity. }
    replace (RtoC (k2 g p) * (F c p - RtoC (wavevector g p c) * (dot3 (fun i => RtoC (wavevector g p i)) (fun i => F i p) / RtoC (k2 g p))))
      with (RtoC (k2 g p) * F c p - RtoC (wavevector g p c) * dot3 (fun i => RtoC (wavevector g p i)) (fun i => F i p)) by (field; assumption).
    rewrite Ek. unfold dot3.
    destruct c as [|[|[|c]]]; [| | |lia]; unfold cross3; rewrite !curl_ft_cross by (assumption || lia); cbn [cross3];
      generalize (RtoC (wavevector g p 0)) (RtoC (wavevector g p 1)) (RtoC (wavevector g p 2)) (F 0%nat p) (F 1%nat p) (F 2%nat p);
      intros [x x'] [y y'] [z z'] [a a'] [b b'] [d d']; apply C_eq; cbn; ring.
Qed.

Lemma curl_longitudinal_ft g F c p : proper g -> (rndim g <= 3)%nat -> inside (rshape g) p -> (c < 3)%nat ->
  curl_ft g 3 3 (longitudinal_ft g F) c p = 0.
Proof.
  intros Hg Hn Hp Hc. rewrite curl_ft_cross by assumption. destruct (is_origin p) eqn:Ho.
  - unfold cross3. rewrite !wavevector_origin by assumption. destruct c as [|[|c]]; ring.
  - unfold cross3. rewrite !longitudinal_ft_wavevector by assumption. destruct c as [|[|c]]; ring.
Qed.

(** *** The projections, for any number of dimensions *)
Section Projections.
  Variables (g : raster) (p : list nat).
  Hypothesis Hg : proper g.
  Hypothesis Hp : inside (rshape g) p.

  Lemma k_dot_longitudinal F : is_origin p = false ->
    csum (rndim g) (fun i => RtoC (kvec g i p) * longitudinal_ft g F i p) = csum (rndim g) (fun i => RtoC (kvec g i p) * F i p).
  Proof.
    intros Ho. pose proof (k2_neq0 _ _ Hg Hp Ho) as Hk. set (D := csum (rndim g) (fun i => RtoC (kvec g i p) * F i p)).
    rewrite (csum_ext _ _ (fun i => RtoC (kvec g i p * kvec g i p) * (D / RtoC (k2 g p)))).
    - rewrite csum_scal_r, csum_RtoC. fold (k2 g p). field. assumption.
    - intros i Hi. unfold longitudinal_ft. rewrite Ho. destruct (Nat.ltb_spec i (rndim g)); [|lia]. fold D. rewrite RtoC_mult. ring.
  Qed.
  Lemma longitudinal_idempotent_ft F c : longitudinal_ft g (longitudinal_ft g F) c p = longitudinal_ft g F c p.
  Proof.
    unfold longitudinal_ft at 1 3. destruct (Nat.ltb_spec c (rndim g)) as [Hc|Hc]; [|reflexivity].
    destruct (is_origin p) eqn:Ho.
    - unfold longitudinal_ft. rewrite Ho. destruct (Nat.ltb_spec c (rndim g)); [reflexivity|lia].
    - rewrite k_dot_longitudinal by assumption. reflexivity.
  Qed.
  Lemma longitudinal_minus F G c : longitudinal_ft g (fun c p => F c p - G c p) c p = longitudinal_ft g F c p - longitudinal_ft g G c p.
  Proof.
    unfold longitudinal_ft. destruct (Nat.ltb c (rndim g)); [|ring]. destruct (is_origin p); [reflexivity|].
    rewrite (csum_ext _ _ (fun i => RtoC (kvec g i p) * F i p + - (1) * (RtoC (kvec g i p) * G i p))) by (intros; ring).
    rewrite csum_plus, csum_scal. unfold Cdiv. ring.
  Qed.
  Lemma longitudinal_transversal_ft F c : longitudinal_ft g (transversal_ft g F) c p = 0.
  Proof. unfold transversal_ft. rewrite longitudinal_minus, longitudinal_idempotent_ft. ring. Qed.
  Lemma transversal_longitudinal_ft F c : transversal_ft g (longitudinal_ft g F) c p = 0.
  Proof. unfold transversal_ft. rewrite longitudinal_idempotent_ft. ring. Qed.
  Lemma transversal_idempotent_ft F c : transversal_ft g (transversal_ft g F) c p = transversal_ft g F c p.
  Proof. unfold transversal_ft at 1. rewrite longitudinal_transversal_ft. ring. Qed.
  Lemma k_dot_transversal F : csum (rndim g) (fun i => RtoC (kvec g i p) * transversal_ft g F i p) = 0.
  Proof.
    unfold transversal_ft. destruct (is_origin p) eqn:Ho.
    - rewrite (csum_ext _ _ (fun _ => 0)); [apply csum_zero|]. intros i Hi. rewrite kvec_origin by assumption. ring.
    - rewrite (csum_ext _ _ (fun i => RtoC (kvec g i p) * F i p + - (1) * (RtoC (kvec g i p) * longitudinal_ft g F i p))) by (intros; ring).
      rewrite csum_plus, csum_scal, k_dot_longitudinal by assumption. ring.
  Qed.
  (** Orthogonality of the two parts at one wave vector. *)
  Lemma longitudinal_transversal_orthogonal_ft n F G : (rndim g <= n)%nat ->
    csum n (fun c => Cconj (longitudinal_ft g F c p) * transversal_ft g G c p) = 0.
  Proof.
    intros Hn. destruct (is_origin p) eqn:Ho.
    - rewrite (csum_ext _ _ (fun _ => 0)); [apply csum_zero|]. intros c Hc. unfold transversal_ft, longitudinal_ft.
      rewrite Ho. destruct (Nat.ltb c (rndim g)); [ring|]. rewrite Cconj_R. ring.
    - replace n with (rndim g + (n - rndim g))%nat by lia.
      assert (forall m, csum (rndim g + m) (fun c => Cconj (longitudinal_ft g F c p) * transversal_ft g G c p)
                = csum (rndim g) (fun c => Cconj (longitudinal_ft g F c p) * transversal_ft g G c p)) as Hm.
      { intros m. induction m; [rewrite Nat.add_0_r; reflexivity|]. rewrite Nat.add_succ_r. cbn [csum]. rewrite IHm.
        assert (longitudinal_ft g F (rndim g + m)%nat p = 0) as ->.
        { unfold longitudinal_ft. destruct (Nat.ltb_spec (rndim g + m) (rndim g)); [lia|reflexivity]. }
        rewrite Cconj_R. ring. }
      rewrite Hm. set (D := csum (rndim g) (fun i => RtoC (kvec g i p) * F i p)).
      rewrite (csum_ext _ _ (fun c => Cconj (D / RtoC (k2 g p)) * (RtoC (kvec g c p) * transversal_ft g G c p))).
      + rewrite csum_scal, k_dot_transversal. ring.
      + intros c Hc. unfold longitudinal_ft at 1. rewrite Ho. destruct (Nat.ltb_spec c (rndim g)); [|lia]. fold D.
        rewrite Cconj_mult, Cconj_R. ring.
  Qed.
End Projections.

Lemma longitudinal_pointwise g n : (rndim g <= n)%nat -> pointwise (rshape g) n (longitudinal_ft g).
Proof.
  intros Hn F G p Hp H c Hc. unfold longitudinal_ft. destruct (Nat.ltb c (rndim g)); [|reflexivity].
  destruct (is_origin p); [apply H; assumption|]. do 2 f_equal. apply csum_ext. intros i Hi. rewrite (H i) by lia. reflexivity.
Qed.
Lemma transversal_pointwise g n : (rndim g <= n)%nat -> pointwise (rshape g) n (transversal_ft g).
Proof.
  intros Hn F G p Hp H c Hc. unfold transversal_ft. rewrite (H c Hc), (longitudinal_pointwise g n Hn F G p Hp H c Hc). reflexivity.
Qed.
Lemma curl_pointwise g : (rndim g <= 3)%nat -> pointwise (rshape g) 3 (curl_ft g 3 3).
Proof.
  intros Hn F G p Hp H c Hc. rewrite !curl_ft_cross by assumption. f_equal. unfold cross3.
  destruct c as [|[|c]]; rewrite !H by lia; reflexivity.
Qed.

(** ** In real space *)
Lemma longitudinal_plus_transversal g F n : vagree n (rshape g) (fun c p => longitudinal g F c p + transversal g F c p) F.
Proof.
  intros c p Hc Hp. unfold longitudinal, transversal, convolve, vift. rewrite <- ift_plus.
  transitivity (ift (rshape g) (ft (rshape g) (F c)) p); [|apply ift_ft; assumption].
  apply ift_ext. intros k Hk. unfold transversal_ft, vft. ring.
Qed.
Lemma longitudinal_idempotent g F n : proper g -> (rndim g <= n)%nat -> vagree n (rshape g) (longitudinal g (longitudinal g F)) (longitudinal g F).
Proof.
  intros Hg Hn c p Hc Hp. unfold longitudinal. rewrite (convolve_convolve _ n _ _ _ _ _ (longitudinal_pointwise g n Hn) Hc).
  apply convolve_ext. intros k Hk. apply longitudinal_idempotent_ft; assumption.
Qed.
Lemma transversal_idempotent g F n : proper g -> (rndim g <= n)%nat -> vagree n (rshape g) (transversal g (transversal g F)) (transversal g F).
Proof.
  intros Hg Hn c p Hc Hp. unfold transversal. rewrite (convolve_convolve _ n _ _ _ _ _ (transversal_pointwise g n Hn) Hc).
  apply convolve_ext. intros k Hk. apply transversal_idempotent_ft; assumption.
Qed.
Lemma convolve_zero s F c p : convolve s (fun _ _ _ => 0) F c p = 0.
Proof.
  unfold convolve, vift, ift. rewrite (sum_over_ext _ _ (fun _ => 0)); [rewrite sum_over_zero; unfold Cdiv; ring|]. intros; ring.
Qed.
Lemma longitudinal_of_transversal g F n : proper g -> (rndim g <= n)%nat ->
  vagree n (rshape g) (longitudinal g (transversal g F)) (fun _ _ => 0) /\ vagree n (rshape g) (transversal g (longitudinal g F)) (fun _ _ => 0).
Proof.
  intros Hg Hn. split; intros c p Hc Hp; unfold longitudinal, transversal.
  - rewrite (convolve_convolve _ n _ _ _ _ _ (longitudinal_pointwise g n Hn) Hc), <- (convolve_zero (rshape g) F c p).
    apply convolve_ext. intros k Hk. apply longitudinal_transversal_ft; assumption.
  - rewrite (convolve_convolve _ n _ _ _ _ _ (transversal_pointwise g n Hn) Hc), <- (convolve_zero (rshape g) F c p).
    apply convolve_ext. intros k Hk. apply transversal_longitudinal_ft; assumption.
Qed.

Lemma vip_vift n s F G : nonempty s -> vip n s F G = RtoC (INR (points s)) * vip n s (vift s F) (vift s G).
Proof.
  intros Hs. unfold vip, vift. rewrite <- csum_scal. apply csum_ext. intros c _. apply ift_ip. assumption.
Qed.
Lemma vip_swap n s F G : vip n s F G = sum_over s (fun p => csum n (fun c => Cconj (F c p) * G c p)).
Proof. unfold vip, ip. rewrite sum_over_csum. reflexivity. Qed.

Lemma longitudinal_transversal_orthogonal g F G n : proper g -> (rndim g <= n)%nat ->
  vip n (rshape g) (longitudinal g F) (transversal g G) = 0.
Proof.
  intros Hg Hn. assert (nonempty (rshape g)) as Hs by apply Hg.
  destruct (Ceq_dec (vip n (rshape g) (longitudinal g F) (transversal g G)) 0) as [E|E]; [exact E|exfalso].
  apply (Cmult_neq_0 _ _ (points_neq_0 _ Hs) E). unfold longitudinal, transversal, convolve. rewrite <- vip_vift by assumption.
  rewrite vip_swap. transitivity (sum_over (rshape g) (fun _ => 0)); [|apply sum_over_zero]. apply sum_over_ext. intros p Hp.
  apply longitudinal_transversal_orthogonal_ft; assumption.
Qed.

Lemma vnorm2_vip n s F : vip n s F F = RtoC (vnorm2 n s F).
Proof. rewrite vip_flat, vnorm2_flat. apply ip_self. Qed.
Lemma vagree_vip n s F G F' G' : vagree n s F F' -> vagree n s G G' -> vip n s F G = vip n s F' G'.
Proof. intros HF HG. apply csum_ext. intros c Hc. apply ip_ext; intros p Hp; [apply HF|apply HG]; assumption. Qed.
Lemma vagree_vnorm2 n s F G : vagree n s F G -> vnorm2 n s F = vnorm2 n s G.
Proof. intros H. apply rsum_ext. intros c Hc. apply norm2_ext. intros p Hp. apply H; assumption. Qed.
Lemma vnorm2_plus n s F G : vnorm2 n s (fun c p => F c p + G c p) = (vnorm2 n s F + vnorm2 n s G + 2 * fst (vip n s F G))%R.
Proof. exact (norm2_expand (n :: s) (flat F) (flat G)). Qed.

Lemma pythagoras g F n : proper g -> (rndim g <= n)%nat ->
  vnorm2 n (rshape g) F = (vnorm2 n (rshape g) (longitudinal g F) + vnorm2 n (rshape g) (transversal g F))%R.
Proof.
  intros Hg Hn. rewrite <- (vagree_vnorm2 _ _ _ _ (longitudinal_plus_transversal g F n)).
  rewrite vnorm2_plus, longitudinal_transversal_orthogonal by assumption. cbn. ring.
Qed.

Lemma ift_zero s p : ift s (fun _ => 0) p = 0.
Proof. unfold ift. rewrite (sum_over_ext _ _ (fun _ => 0)); [rewrite sum_over_zero; unfold Cdiv; ring|]. intros; ring. Qed.

Lemma div_transversal g F n : proper g -> (rndim g <= n)%nat ->
  exists d, div g n (transversal g F) = Ok d /\ agree (rshape g) d (fun _ => 0).
Proof.
  intros Hg Hn. unfold div, div_ft. destruct (Nat.ltb_spec n (rndim g)); [lia|]. cbn [bind]. eexists. split; [reflexivity|].
  intros p Hp. rewrite <- (ift_zero (rshape g) p). apply ift_ext. intros k Hk.
  rewrite (csum_ext _ _ (fun d => Ci * (RtoC (kvec g d k) * transversal_ft g (vft (rshape g) F) d k))).
  - rewrite csum_scal, k_dot_transversal by assumption. ring.
  - intros i Hi. unfold transversal. rewrite vft_convolve by assumption. ring.
Qed.
Lemma div_curl g F : proper g -> (rndim g <= 3)%nat ->
  exists d, div g 3 (curl g 3 F) = Ok d /\ agree (rshape g) d (fun _ => 0).
Proof.
  intros Hg Hn. unfold div, div_ft. destruct (Nat.ltb_spec 3 (rndim g)); [lia|]. cbn [bind]. eexists. split; [reflexivity|].
  intros p Hp. rewrite <- (ift_zero (rshape g) p). apply ift_ext. intros k Hk.
  rewrite <- (div_curl_ft g (vft (rshape g) F) k Hn). apply csum_ext.
  intros i Hi. unfold curl. rewrite vft_convolve by assumption. reflexivity.
Qed.
Lemma curl_longitudinal g F : proper g -> (rndim g <= 3)%nat -> vagree 3 (rshape g) (curl g 3 (longitudinal g F)) (fun _ _ => 0).
Proof.
  intros Hg Hn c p Hc Hp. unfold curl, longitudinal. rewrite (convolve_convolve _ 3 _ _ _ _ _ (curl_pointwise g Hn) Hc).
  rewrite <- (convolve_zero (rshape g) F c p). apply convolve_ext. intros k Hk. apply curl_longitudinal_ft; assumption.
Qed.
Lemma curl_curl g F : proper g -> (rndim g <= 3)%nat ->
  vagree 3 (rshape g) (curl g 3 (curl g 3 F)) (convolve (rshape g) (fun F c p => RtoC (k2 g p) * F c p) (transversal g F)).
Proof.
  intros Hg Hn c p Hc Hp. unfold curl. rewrite (convolve_convolve _ 3 _ _ _ _ _ (curl_pointwise g Hn) Hc).
  unfold transversal. rewrite (convolve_convolve _ 3 _ _ _ _ _) by (assumption || (intros F' G' q _ H' d Hd; rewrite H' by assumption; reflexivity)).
  apply convolve_ext. intros k Hk. apply curl_curl_ft; assumption.
Qed.

(** ** Plane waves *)
Lemma cis_2PI_Z z : cis (2 * PI * IZR z) = 1.
Proof.
  destruct z as [|q|q].
  - cbn. rewrite Rmult_0_r. apply cis_0.
  - rewrite <- (positive_nat_Z q), <- INR_IZR_INZ. apply cis_2PI_nat.
  - replace (IZR (Z.neg q)) with (- INR (Pos.to_nat q))%R.
    + replace (2 * PI * - INR (Pos.to_nat q))%R with (- (2 * PI * INR (Pos.to_nat q)))%R by ring.
      rewrite cis_neg, cis_2PI_nat. apply Cconj_R.
    + rewrite INR_IZR_INZ, positive_nat_Z, <- opp_IZR. reflexivity.
Qed.

Lemma cis_rsum n f g : (forall i, (i < n)%nat -> cis (f i) = cis (g i)) -> cis (rsum n f) = cis (rsum n g).
Proof. induction n; intros H; cbn [rsum]; [reflexivity|]. rewrite !cis_plus, IHn, H by (intros; try apply H; lia). reflexivity. Qed.
Lemma rsum_shift n f : rsum (S n) f = (f 0%nat + rsum n (fun i => f (S i)))%R.
Proof. induction n; [cbn; ring|]. cbn [rsum] in *. rewrite IHn. ring. Qed.
Lemma phase_rsum s j k : inside s j -> inside s k ->
  phase s j k = rsum (length s) (fun i => (2 * PI * (INR (nth i j 0%nat) * INR (nth i k 0%nat)) / INR (nth i s 1%nat))%R).
Proof.
  intros Hj. revert k. induction Hj; intros k Hk; inversion Hk; subst; [reflexivity|].
  cbn [length]. rewrite rsum_shift. cbn [phase nth]. f_equal. apply IHHj. assumption.
Qed.

Lemma plane_wave_phase g m p : proper g -> inside (rshape g) m -> inside (rshape g) p ->
  plane_wave g m p = cis (phase (rshape g) p m).
Proof.
  intros (Hl & Hn & Hs) Hm Hp. unfold plane_wave. rewrite phase_rsum by assumption. apply cis_rsum. intros i Hi.
  unfold wavevector. destruct (Nat.ltb_spec i (rndim g)); [|contradiction (Nat.lt_irrefl _ (Nat.lt_le_trans _ _ _ Hi H))].
  unfold kvec, k_axis, position.
  pose proof (inside_nth _ _ i Hp Hi). pose proof (inside_nth _ _ i Hm Hi).
  set (n := nth i (rshape g) 1%nat) in *. set (j := nth i p 0%nat) in *. set (q := nth i m 0%nat) in *.
  assert (0 < INR n)%R by (apply lt_0_INR; lia).
  assert (nth i (rstep g) 1%R <> 0)%R as Hd.
  { rewrite Forall_forall in Hs. apply Hs, nth_In. unfold rndim in Hi. lia. }
  unfold k_index. destruct (Nat.ltb (2 * q) n).
  - f_equal. rewrite <- INR_IZR_INZ. field. split; lra || assumption.
  - rewrite minus_IZR, <- !INR_IZR_INZ.
    replace (2 * PI * (INR q - INR n) / (INR n * nth i (rstep g) 1%R) * (INR j * nth i (rstep g) 1%R))%R with
      (2 * PI * (INR j * INR q) / INR n + 2 * PI * IZR (- Z.of_nat j))%R.
    + rewrite cis_plus, cis_2PI_Z. ring.
    + rewrite opp_IZR, <- INR_IZR_INZ. field. split; lra || assumption.
Qed.

Lemma ft_plane_wave g m k a : proper g -> inside (rshape g) m -> inside (rshape g) k ->
  ft (rshape g) (fun p => a * plane_wave g m p) k = if idx_eqb m k then RtoC (INR (points (rshape g))) * a else 0.
Proof.
  intros Hg Hm Hk. unfold ft.
  rewrite (sum_over_ext _ _ (fun j => a * cis (phase (rshape g) m j - phase (rshape g) k j))).
  - rewrite sum_over_scal, sum_over_orthogonal by assumption. destruct (idx_eqb m k); ring.
  - intros j Hj. rewrite plane_wave_phase by assumption. rewrite (phase_sym _ m j), (phase_sym _ k j). unfold Rminus.
    rewrite cis_plus. ring.
Qed.
Lemma ift_delta g m b p : proper g -> inside (rshape g) m -> inside (rshape g) p ->
  ift (rshape g) (fun k => if idx_eqb m k then RtoC (INR (points (rshape g))) * b k else 0) p = b m * plane_wave g m p.
Proof.
  intros Hg Hm Hp. assert (nonempty (rshape g)) as Hs by apply Hg. pose proof (points_neq_0 _ Hs) as HN.
  unfold ift. rewrite (sum_over_ext _ _ (fun k => if idx_eqb k m then RtoC (INR (points (rshape g))) * b k * cis (phase (rshape g) p k) else 0)).
  - rewrite sum_over_delta by assumption. rewrite plane_wave_phase by assumption. field. assumption.
  - intros k Hk. destruct (idx_eqb_spec m k), (idx_eqb_spec k m); try congruence; ring.
Qed.

(** An operation that multiplies a plane wave's amplitudes. *)
Lemma convolve_plane_wave g n op (a : nat -> C) (b : list nat -> nat -> C) m c p :
  proper g -> inside (rshape g) m -> inside (rshape g) p -> (c < n)%nat ->
  pointwise (rshape g) n op ->
  (forall x : C, op (fun c _ => x * a c) c m = x * b m c) ->
  (forall k, inside (rshape g) k -> op (fun _ _ => 0) c k = 0) ->
  convolve (rshape g) op (fun c p => a c * plane_wave g m p) c p = b m c * plane_wave g m p.
Proof.
  intros Hg Hm Hp Hc Hpw Hb H0. rewrite <- (ift_delta g m (fun k => b k c) p) by assumption. unfold convolve, vift.
  apply ift_ext. intros k Hk. destruct (idx_eqb_spec m k) as [<-|Hne].
  - rewrite <- Hb. apply (Hpw _ _ m Hm); [|assumption]. intros d Hd. unfold vft. rewrite ft_plane_wave by assumption.
    destruct (idx_eqb_spec m m); [reflexivity|contradiction].
  - rewrite <- (H0 k Hk). apply (Hpw _ _ k Hk); [|assumption]. intros d Hd. unfold vft. rewrite ft_plane_wave by assumption.
    destruct (idx_eqb_spec m k); [contradiction|reflexivity].
Qed.

Lemma curl_plane_wave g (a : nat -> C) m : proper g -> (rndim g <= 3)%nat -> inside (rshape g) m ->
  vagree 3 (rshape g) (curl g 3 (fun c p => a c * plane_wave g m p))
    (fun c p => Ci * cross3 (fun i => RtoC (wavevector g m i)) a c * plane_wave g m p).
Proof.
  intros Hg Hn Hm c p Hc Hp. unfold curl.
  apply (convolve_plane_wave g 3 (curl_ft g 3 3) a (fun m c => Ci * cross3 (fun i => RtoC (wavevector g m i)) a c) m c p); try assumption.
  - apply curl_pointwise. assumption.
  - intros x. rewrite curl_ft_cross by assumption. unfold cross3. destruct c as [|[|c]]; ring.
  - intros k Hk. rewrite curl_ft_cross by assumption. unfold cross3. destruct c as [|[|c]]; ring.
Qed.
Lemma div_plane_wave g n (a : nat -> C) m : proper g -> (rndim g <= n)%nat -> inside (rshape g) m ->
  exists d, div g n (fun c p => a c * plane_wave g m p) = Ok d /\
    agree (rshape g) d (fun p => Ci * csum n (fun i => RtoC (wavevector g m i) * a i) * plane_wave g m p).
Proof.
  intros Hg Hn Hm. unfold div, div_ft. destruct (Nat.ltb_spec n (rndim g)); [lia|]. cbn [bind]. eexists. split; [reflexivity|].
  intros p Hp. transitivity (csum (rndim g) (fun d => Ci * RtoC (kvec g d m) * a d) * plane_wave g m p).
  - rewrite <- (ift_delta g m (fun k => csum (rndim g) (fun d => Ci * RtoC (kvec g d k) * a d)) p) by assumption.
    apply ift_ext. intros k Hk. unfold vft.
    rewrite (csum_ext _ _ (fun d => Ci * RtoC (kvec g d k) * (if idx_eqb m k then RtoC (INR (points (rshape g))) * a d else 0))).
    + destruct (idx_eqb m k).
      * rewrite <- csum_scal. apply csum_ext. intros; ring.
      * rewrite (csum_ext _ _ (fun _ => 0)); [apply csum_zero|]. intros; ring.
    + intros i Hi. rewrite ft_plane_wave by assumption. reflexivity.
  - f_equal. rewrite (csum_ext _ _ (fun i => Ci * (RtoC (kvec g i m) * a i))) by (intros; ring). rewrite csum_scal. f_equal.
    replace n with (rndim g + (n - rndim g))%nat by lia. generalize (n - rndim g)%nat. intros r. induction r.
    + rewrite Nat.add_0_r. apply csum_ext. intros i Hi. unfold wavevector. destruct (Nat.ltb_spec i (rndim g)); [reflexivity|lia].
    + rewrite Nat.add_succ_r. cbn [csum]. rewrite <- IHr. unfold wavevector.
      destruct (Nat.ltb_spec (rndim g + r) (rndim g)); [lia|]. ring.
Qed.

(** The uniform part. *)
Lemma origin_inside g : proper g -> inside (rshape g) (origin g).
Proof.
  intros (_ & Hn & _). unfold origin, rndim. induction Hn; cbn; constructor; assumption.
Qed.
Lemma is_origin_origin g : is_origin (origin g) = true.
Proof. unfold origin, is_origin. induction (rndim g); cbn; [reflexivity|assumption]. Qed.
Lemma rsum_zero n : rsum n (fun _ => 0%R) = 0%R.
Proof. induction n; cbn; [reflexivity|]. rewrite IHn. ring. Qed.
Lemma plane_wave_origin g p : proper g -> plane_wave g (origin g) p = 1.
Proof.
  intros Hg. unfold plane_wave. rewrite (rsum_ext _ _ (fun _ => 0%R)); [rewrite rsum_zero; apply cis_0|].
  intros i Hi. rewrite wavevector_origin by (assumption || apply origin_inside || apply is_origin_origin; assumption). ring.
Qed.
Lemma longitudinal_uniform g n (a : nat -> C) : proper g -> (rndim g <= n)%nat ->
  vagree n (rshape g) (longitudinal g (fun c _ => a c)) (fun c _ => if Nat.ltb c (rndim g) then a c else 0).
Proof.
  intros Hg Hn c p Hc Hp. pose proof (origin_inside g Hg) as Ho.
  transitivity (longitudinal g (fun c p => a c * plane_wave g (origin g) p) c p).
  - unfold longitudinal, convolve, vift. apply ift_ext. intros k Hk. apply (longitudinal_pointwise g n Hn _ _ k Hk); [|assumption].
    intros d Hd. unfold vft. apply ft_ext. intros q Hq. rewrite plane_wave_origin by assumption. ring.
  - unfold longitudinal.
    rewrite (convolve_plane_wave g n (longitudinal_ft g) a (fun m c => if Nat.ltb c (rndim g) then a c else 0) (origin g) c p); try assumption.
    + rewrite plane_wave_origin by assumption. ring.
    + apply longitudinal_pointwise. assumption.
    + intros x. unfold longitudinal_ft. rewrite is_origin_origin. destruct (Nat.ltb c (rndim g)); ring.
    + intros k Hk. unfold longitudinal_ft. destruct (Nat.ltb c (rndim g)); [|reflexivity]. destruct (is_origin k); [reflexivity|].
      rewrite (csum_ext _ _ (fun _ => 0)) by (intros; ring). rewrite csum_zero. unfold Cdiv. ring.
Qed.

(** ** Cross product *)
Lemma cross_cross3 A B c p : (c < 3)%nat -> cross 3 A B c p = cross3 (fun i => A i p) (fun i => B i p) c.
Proof. intros Hc. destruct c as [|[|[|c]]]; [reflexivity|reflexivity|reflexivity|lia]. Qed.
Lemma cross_antisym A B c p n : cross n A B c p = - cross n B A c p.
Proof. unfold cross. ring. Qed.
Lemma cross_orthogonal A B p : csum 3 (fun c => A c p * cross 3 A B c p) = 0 /\ csum 3 (fun c => B c p * cross 3 A B c p) = 0.
Proof. split; cbn [csum]; rewrite !cross_cross3 by lia; cbn [cross3]; ring. Qed.
Lemma div_too_few g nf F : (nf < rndim g)%nat -> div g nf F = Err IndexError.
Proof. intros H. unfold div, div_ft. destruct (Nat.ltb_spec nf (rndim g)); [reflexivity|lia]. Qed.
