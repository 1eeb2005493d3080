(** solve returns the fields of the magnetic and chiral problems that its arguments state. *)
From Coq Require Import Reals Lra Lia List Arith ZArith Bool.
Require Import Verif.Base Verif.Num Verif.Grid_Model Verif.Grid_Spec Verif.Grid_Proofs Verif.Bound_Model Verif.Bound_Spec Verif.Setup_Model Verif.Entry_Model Verif.Entry_Spec Verif.Entry_Proofs.
Require Import Verif.Cplx Verif.CSum Verif.Field Verif.Fourier_Model Verif.Fourier_Spec Verif.Vec_Model Verif.Vec_Spec Verif.Vec_Proofs Verif.Vec_Grid Verif.Solver_Model Verif.Solver_Spec Verif.Solver_Proofs.
Require Import Verif.Derived_Model Verif.Derived_Spec Verif.Choice_Model Verif.Choice_Proofs Verif.Array_Model Verif.Array_Spec Verif.Material_Model Verif.Material_Spec Verif.Material_Proofs Verif.Material_More.
Require Import Verif.Run_Model Verif.Run_Spec Verif.Run_Glue Verif.Run_Converge Verif.Magnetic_Spec Verif.Magnetic_Run.
Require Import Verif.Whole_Model Verif.Whole_Spec Verif.Whole_Proofs Verif.Whole_Results.
Import ListNotations.
Local Open Scope R_scope.
Local Open Scope C_scope.

Section Tensors.
  Variable gs : list nat.
  Lemma negated_functional n t t1 t2 : negated_where (negative_index n) t t1 -> negated_where (negative_index n) t t2 -> tagree gs t1 t2.
  Proof.
    assert (forall p, negative_index n p \/ ~ negative_index n p) as D.
    { intros p. destruct n; cbn; [destruct (Rlt_dec (fst (f p)) 0); tauto|tauto]. }
    destruct t, t1, t2; cbn; try contradiction; intros H1 H2; [intros p _|intros i j p _ _ _]; destruct (D p) as [N|N].
    - rewrite (proj1 (H1 p) N), (proj1 (H2 p) N). reflexivity.
    - rewrite (proj2 (H1 p) N), (proj2 (H2 p) N). reflexivity.
    - rewrite (proj1 (H1 i j p) N), (proj1 (H2 i j p) N). reflexivity.
    - rewrite (proj2 (H1 i j p) N), (proj2 (H2 i j p) N). reflexivity.
  Qed.
  Lemma tagree3 t t' F c p : tagree gs t t' -> (c < 3)%nat -> CSum.inside gs p -> tapply t F c p = tapply t' F c p.
  Proof. intros H. apply (tagree_apply gs 3); [exact H|left; reflexivity]. Qed.
  Lemma given_tagree a t t' : given gs a t -> tagree gs t t' -> given gs a t'.
  Proof. intros G H. apply (given_agree gs a t t' G). destruct t, t'; exact H. Qed.
  Lemma tagree_sym t t' : tagree gs t t' -> tagree gs t' t.
  Proof. destruct t, t'; cbn; try contradiction; intros; symmetry; auto. Qed.
  Lemma elements_agree t t' p : tagree gs t t' -> CSum.inside gs p -> elements t p = elements t' p.
  Proof.
    destruct t, t'; cbn; try contradiction; intros H Hp; [rewrite H by exact Hp; reflexivity|]. rewrite !H by (lia || exact Hp). reflexivity.
  Qed.
End Tensors.
Lemma any_over_ext s (F G : list nat -> bool) : (forall p, CSum.inside s p -> F p = G p) -> any_over s F = any_over s G.
Proof.
  intros H. apply eq_true_iff_eq. rewrite !any_over_spec. split; intros (p & Hp & E); exists p; split; try exact Hp; [rewrite <- H|rewrite H]; assumption.
Qed.
Lemma allclose_agree s t t' y : tagree s t t' -> allclose s t y = allclose s t' y.
Proof. intros H. unfold allclose, all_over. f_equal. apply any_over_ext. intros p Hp. rewrite (elements_agree s t t' p H Hp). reflexivity. Qed.
Lemma zeros_inside s : List.Forall (fun n => 0 < n)%nat s -> CSum.inside s (map (fun _ => 0%nat) s).
Proof. induction 1; constructor; assumption. Qed.
Lemma magnetic_agree s xi zeta mu xi' zeta' mu' : List.Forall (fun n => 0 < n)%nat s -> tagree s xi xi' -> tagree s zeta zeta' -> tagree s mu mu' ->
  is_magnetic s xi zeta mu = is_magnetic s xi' zeta' mu'.
Proof.
  intros Hs H1 H2 H3. unfold is_magnetic. rewrite (allclose_agree s xi xi' _ H1), (allclose_agree s zeta zeta' _ H2), (allclose_agree s mu mu' _ H3).
  unfold first. rewrite (elements_agree s mu mu' _ H3 (zeros_inside s Hs)). reflexivity.
Qed.

Section Agree.
  Variables (s : list nat) (e e' x x' z z' m m' : tensor).
  Hypothesis He : tagree s e e'.
  Hypothesis Hx : tagree s x x'.
  Hypothesis Hz : tagree s z z'.
  Hypothesis Hm : tagree s m m'.
  Lemma dissipates_agree loss : dissipates s e' x' z' m' loss -> dissipates s e x z m loss.
  Proof.
    intros H p E F Hp at_p. specialize (H p E F Hp). cbn zeta in H. eapply Rle_trans; [exact H|]. right. f_equal. apply csum_ext. intros i Hi. unfold at_p.
    rewrite (tagree3 s e e' _ i p He Hi Hp), (tagree3 s x x' _ i p Hx Hi Hp), (tagree3 s z z' _ i p Hz Hi Hp), (tagree3 s m m' _ i p Hm Hi Hp). reflexivity.
  Qed.
  Lemma inverse_agree nu : inverse_of s m' nu -> inverse_of s m nu.
  Proof.
    intros H F. destruct (H F) as [H1 H2]. split; intros c p Hc Hp.
    - rewrite <- (H1 c p Hc Hp). apply (tagree3 s); assumption.
    - rewrite <- (H2 c p Hc Hp). assert (forall i, (i < 3)%nat -> tapply m F i p = tapply m' F i p) as A by (intros i Hi; apply (tagree3 s); assumption).
      destruct nu; cbn [tapply]; [rewrite A by exact Hc; reflexivity|]. apply csum_ext. intros i Hi. rewrite A by exact Hi. reflexivity.
  Qed.
  Lemma coupling_agree nu G c p : (c < 3)%nat -> CSum.inside s p -> coupling x z nu G c p = coupling x' z' nu G c p.
  Proof.
    intros Hc Hp. unfold coupling. rewrite (tagree3 s x x' _ c p Hx Hc Hp). f_equal. destruct nu; cbn [tapply]; [rewrite (tagree3 s z z' _ c p Hz Hc Hp); reflexivity|].
    apply csum_ext. intros i Hi. rewrite (tagree3 s z z' _ i p Hz Hi Hp). reflexivity.
  Qed.
  Lemma maxwell_agree u g k0 E H J J' : rshape g = s -> vagree 3 s J J' -> maxwell u g k0 e x z m E H J <-> maxwell u g k0 e' x' z' m' E H J'.
  Proof.
    intros Hg HJ. unfold maxwell, faraday, ampere. rewrite Hg.
    assert (forall c p, (c < 3)%nat -> CSum.inside s p -> constitutive_B u z m E H c p = constitutive_B u z' m' E H c p) as A1.
    { intros c p Hc Hp. unfold constitutive_B. rewrite (tagree3 s z z' _ c p Hz Hc Hp), (tagree3 s m m' _ c p Hm Hc Hp). reflexivity. }
    assert (forall c p, (c < 3)%nat -> CSum.inside s p -> constitutive_D u e x E H c p = constitutive_D u e' x' E H c p) as A2.
    { intros c p Hc Hp. unfold constitutive_D. rewrite (tagree3 s e e' _ c p He Hc Hp), (tagree3 s x x' _ c p Hx Hc Hp). reflexivity. }
    split; intros [H1 H2]; split; intros c p Hc Hp; specialize (H1 c p Hc Hp); specialize (H2 c p Hc Hp).
    - rewrite <- A1 by assumption. exact H1.
    - rewrite <- A2, <- (HJ c p Hc Hp) by assumption. exact H2.
    - rewrite A1 by assumption. exact H1.
    - rewrite A2, (HJ c p Hc Hp) by assumption. exact H2.
  Qed.
End Agree.

Section General.
  Variables (u : si) (eps : R) (settled : R * R) (thick : option R) (q : request) (g : grid RN) (crd : nat -> list R) (v : bool) (k0 : R)
    (src : vfield) (e x z m : tensor) (chi : list nat -> C).
  Let gs := points_of g.
  Let n := (if v then 3 else 1)%nat.
  Hypothesis Hc : (0 < c_light u)%R.
  Hypothesis Hq : q_grid q = AGrid g.
  Hypothesis Hg : Entry_Spec.spatial g.
  Hypothesis Hcrd : forall i, (i < ndim RN g)%nat -> coordinates g i = Ok (crd i).
  Hypothesis Hxi : means_tensor g crd (q_xi q) x.
  Hypothesis Hzeta : means_tensor g crd (q_zeta q) z.
  Hypothesis Hk : asked_wavenumber u q k0.
  Hypothesis Hkind : asked_kind g q v.
  Hypothesis Hsrc : asked_source u g crd k0 q v src.
  Hypothesis Hmed : asked_materials g crd q e m.
  Hypothesis Hchi : asked_boundary g q chi.
  Hypothesis Hfit : fits v e.

  Lemma general_material h xs : items h = Ok xs -> forallb (Entry_Model.broadcasts (points_of g)) xs = true ->
    (forall p, CSum.inside (points_of g) p -> map (fun c => at_index c p) xs = position g crd p) ->
    exists mu e0 i c a b, func2arr gs h (q_mu q) = Ok mu /\ optional gs h (q_epsilon q) = Ok e0 /\
      (match q_epsilon q with Some _ => Ok None | None => optional gs h (q_refractive_index q) end) = Ok i /\ bound_array (q_bound q) = Ok c /\
      read_materials n (ndim RN g) e0 i mu {| b_electric := c; b_magnetic := None |} = Ok (a, b) /\
      represents gs a (plus_isotropic e chi) /\ represents gs b m.
  Proof.
    intros Hi Hb Hx. pose proof (read_boundary g q chi Hchi) as Hbd.
    assert (exists c, bound_array (q_bound q) = Ok c /\ forall a, given gs a e ->
      exists a', (match c with Some x => add_electric n (ndim RN g) a x | None => Ok a end) = Ok a' /\ given gs a' (plus_isotropic e chi)) as (c & Ecb & Hadd).
    { destruct (q_bound q) as [b|].
      - destruct Hbd as (y & Ex & Sx). exists (Some y). split; [exact Ex|]. intros a Ga. rewrite <- (points_length g). apply electric_added; [|exact Ga|exact Sx].
        unfold n. destruct v; [right; reflexivity|left; split; [reflexivity|]]. destruct e; [eexists; reflexivity|discriminate].
      - destruct Hbd as [Ex Zx]. exists None. split; [exact Ex|]. intros a Ga. exists a. split; [reflexivity|]. apply (given_agree gs a e _ Ga). destruct e; cbn; intros.
        + rewrite Zx. ring.
        + rewrite Zx. destruct (_ =? _)%nat; ring. }
    assert (exists mu e0 i a b, func2arr gs h (q_mu q) = Ok mu /\ optional gs h (q_epsilon q) = Ok e0 /\
      (match q_epsilon q with Some _ => Ok None | None => optional gs h (q_refractive_index q) end) = Ok i /\
      (match e0 with Some e => Ok (e, mu) | None => from_index (ndim RN g) match i with Some n => n | None => number 1 end mu end) = Ok (a, b) /\ given gs a e /\ given gs b m)
      as (mu & e0 & i & a & b & Emu & Ee & Ei & Eab & Ga & Gb).
    { unfold asked_materials in Hmed. destruct (q_epsilon q) as [y|].
      - destruct Hmed as [H1 H2]. destruct (read_tensor g h crd xs Hi Hb Hx y e H1) as (a & Ea & Ga). destruct (read_tensor g h crd xs Hi Hb Hx (q_mu q) m H2) as (b & Eb & Gb). fold gs in Ea, Eb.
        exists b, (Some a), None, a, b. cbn [optional]. rewrite Ea. refine (conj Eb (conj eq_refl (conj eq_refl (conj eq_refl (conj Ga Gb))))).
      - destruct (q_refractive_index q) as [y|].
        + destruct Hmed as (t & m0 & H1 & H2 & N1 & N2). destruct (read_tensor g h crd xs Hi Hb Hx y t H1) as (a & Ea & Ga). destruct (read_tensor g h crd xs Hi Hb Hx (q_mu q) m0 H2) as (b & Eb & Gb). fold gs in Ea, Eb.
          destruct (index_read gs a b t m0 Ga Gb) as (a' & b' & te & tm & E & Ga' & Gb' & N1' & N2').
          exists b, None, (Some a), a', b'. cbn [optional]. rewrite Ea. rewrite <- (points_length g). refine (conj Eb (conj eq_refl (conj eq_refl (conj E (conj _ _))))).
          * exact (given_tagree gs _ _ _ Ga' (negated_functional gs t _ _ _ N1' N1)).
          * exact (given_tagree gs _ _ _ Gb' (negated_functional gs t _ _ _ N2' N2)).
        + destruct Hmed as [-> H2]. destruct (read_tensor g h crd xs Hi Hb Hx (q_mu q) m H2) as (b & Eb & Gb). fold gs in Eb.
          destruct (index_kept gs (number 1) b (TScalar (fun _ => 1)) (points_positive g (proj1 Hg)) (given_number gs 1)) as (e1 & E1 & G1).
          { intros p _ Hn. cbn in Hn. lra. }
          exists b, None, None, e1, b. cbn [optional]. rewrite <- (points_length g). refine (conj Eb (conj eq_refl (conj eq_refl (conj E1 (conj _ Gb))))).
          apply (given_agree gs e1 _ _ G1). cbn. intros. ring. }
    destruct (Hadd a Ga) as (a' & Ea' & Ga'). exists mu, e0, i, c, (to_matrix_field (ndim RN g) a'), (to_matrix_field (ndim RN g) b).
    refine (conj Emu (conj Ee (conj Ei (conj Ecb (conj _ (conj _ _)))))).
    - unfold read_materials. rewrite Eab. cbn [bind fst snd b_electric b_magnetic]. rewrite Ea'. reflexivity.
    - rewrite <- (points_length g). apply given_rep. exact Ga'.
    - rewrite <- (points_length g). apply given_rep. exact Gb.
  Qed.
  Lemma general_solution : exists s e0 x0 z0 m0 S0, new_solution u eps settled thick q = Ok s /\ wavenumber s = k0 /\ (forall c p, field s c p = 0) /\ prev_norm s = Inf /\
    operators s = Choice_Model.construct eps (sampled g) k0 v e0 x0 z0 m0 settled thick S0 /\
    tagree gs e0 (plus_isotropic e chi) /\ tagree gs x0 x /\ tagree gs z0 z /\ tagree gs m0 m /\ vagree n gs S0 src.
  Proof.
    destruct (whole_grid g crd Hg Hcrd) as (h & xs & Eh & Sh & Hi & Hb & Hx). pose proof (raster_for_sampled h g Sh) as Er.
    destruct (whole_source u q g crd v k0 src e Hcrd Hkind Hsrc Hfit h Er xs Hi Hb Hx) as (a & o & Es & Ev & Hv).
    destruct (general_material h xs Hi Hb Hx) as (mu & e0 & i & c & a' & b' & Emu & Ee & Ei & Ecb & Em & Ra & Rb).
    destruct (read_tensor g h crd xs Hi Hb Hx (q_xi q) x Hxi) as (ax & Eax & Gx). destruct (read_tensor g h crd xs Hi Hb Hx (q_zeta q) z Hzeta) as (az & Eaz & Gz).
    pose proof (proj1 Sh) as En. unfold new_solution. rewrite Hq, Eh. cbn [bind]. rewrite Er, (whole_wavenumber u q k0 Hc Hk), En. cbn [rshape sampled]. fold gs. rewrite Es. cbn [bind fst snd].
    rewrite Emu. cbn [bind]. rewrite Ee. cbn [bind]. rewrite Ei. cbn [bind]. rewrite Ecb. cbn [bind]. unfold gs in *. rewrite Ev. fold n. rewrite Em. cbn [bind fst snd]. rewrite Eax. cbn [bind]. rewrite Eaz. cbn [bind].
    eexists. exists (tensor_of a'), (tensor_of (to_matrix_field (ndim RN g) ax)), (tensor_of (to_matrix_field (ndim RN g) az)), (tensor_of b'), (vector_of (ndim RN g) a). split; [reflexivity|]. cbn [wavenumber field prev_norm operators].
    refine (conj eq_refl (conj (fun _ _ => eq_refl) (conj eq_refl (conj eq_refl (conj (tensor_of_agrees _ a' _ Ra) (conj _ (conj _ (conj (tensor_of_agrees _ b' _ Rb) Hv)))))))).
    - apply tensor_of_agrees. rewrite <- (points_length g). apply given_rep, Gx.
    - apply tensor_of_agrees. rewrite <- (points_length g). apply given_rep, Gz.
  Qed.
End General.

Section Results.
  Variables (W : Type) (u : si) (eps : R) (settled : R * R) (thick : option R) (q : request) (g : grid RN) (crd : nat -> list R) (k0 : R)
    (src J : vfield) (e x z m nu : tensor) (kappa : C) (chi : list nat -> C) (w : W).
  Hypothesis He : (0 < eps)%R.
  Hypothesis H1 : (2 * eps <= 1)%R.
  Hypothesis Hu : physical u.
  Hypothesis Hgrid : q_grid q = AGrid g.
  Hypothesis Hg : Entry_Spec.spatial g.
  Hypothesis Hdim : (ndim RN g <= 3)%nat.
  Hypothesis Hcrd : forall i, (i < ndim RN g)%nat -> coordinates g i = Ok (crd i).
  Hypothesis Hxi : means_tensor g crd (q_xi q) x.
  Hypothesis Hzeta : means_tensor g crd (q_zeta q) z.
  Hypothesis Hk : asked_wavenumber u q k0.
  Hypothesis Hk0 : (0 < k0)%R.
  Hypothesis Hkind : asked_kind g q true.
  Hypothesis Hsrc : asked_source u g crd k0 q true src.
  Hypothesis HJ : forall c p, src c p = driving u k0 J c p.
  Hypothesis Hmed : asked_materials g crd q e m.
  Hypothesis Hchi : asked_boundary g q chi.
  Hypothesis Hnu : inverse_of (points_of g) m nu.
  Hypothesis Hmag : is_magnetic (points_of g) x z m = true.
  Hypothesis Hprec : (20 * sqrt (2 * sqrt eps) * ((1 + highest_frequency (sampled g) k0) * (1 + highest_frequency (sampled g) k0)) < snd settled * snd settled)%R.
  Hypothesis Hcouple : forall G, vagree 3 (points_of g) (coupling x z nu G) (fun c p => kappa * G c p).

  Lemma magnetic_parts : exists s e0 x0 z0 m0 J0, new_solution u eps settled thick q = Ok s /\ wavenumber s = k0 /\ (forall c p, field s c p = 0) /\ prev_norm s = Inf /\
    operators s = Choice_Model.construct eps (sampled g) k0 true e0 x0 z0 m0 settled thick (driving u k0 J0) /\
    tagree (points_of g) e0 (plus_isotropic e chi) /\ tagree (points_of g) x0 x /\ tagree (points_of g) z0 z /\ tagree (points_of g) m0 m /\ vagree 3 (points_of g) J0 J.
  Proof.
    destruct Hu as (Hc & Hm0 & _). assert (fits true e) as Hf by (destruct e; cbn; trivial).
    destruct (general_solution u eps settled thick q g crd true k0 src e x z m chi Hc Hgrid Hg Hcrd Hxi Hzeta Hk Hkind Hsrc Hmed Hchi Hf) as (s & e0 & x0 & z0 & m0 & S0 & Es & Ew & Ef & Ep & Eo & Ae & Ax & Az & Am & AS).
    assert (Ci * RtoC (k0 * c_light u) * RtoC (mu_0 u) <> 0) as Hne.
    { assert (0 < k0 * c_light u)%R by (apply Rmult_lt_0_compat; assumption). assert (0 < k0 * c_light u * mu_0 u)%R by (apply Rmult_lt_0_compat; assumption).
      intros E. apply (f_equal snd) in E. cbn in E. lra. }
    exists s, e0, x0, z0, m0, (fun c p => S0 c p / (Ci * RtoC (k0 * c_light u) * RtoC (mu_0 u))).
    refine (conj Es (conj Ew (conj Ef (conj Ep (conj _ (conj Ae (conj Ax (conj Az (conj Am _))))))))).
    - rewrite Eo. f_equal. apply FunctionalExtensionality.functional_extensionality. intros c. apply FunctionalExtensionality.functional_extensionality. intros p. unfold driving. generalize dependent (Ci * RtoC (k0 * c_light u) * RtoC (mu_0 u)). intros d Hd. field. exact Hd.
    - intros c p Hcc Hp. rewrite (AS c p Hcc Hp), HJ. unfold driving. generalize dependent (Ci * RtoC (k0 * c_light u) * RtoC (mu_0 u)). intros d Hd. field. exact Hd.
  Qed.
  Lemma magnetic_ends E H rtol maxiter : dissipates (points_of g) (plus_isotropic e chi) x z m 0 -> maxwell u (sampled g) k0 (plus_isotropic e chi) x z m E H J -> (0 < rtol)%R ->
    exists fuel s, solve u eps settled thick fuel q NoneGiven rtol maxiter w = Ok (Some (Returned w s)) /\ wavenumber s = k0 /\ limit_reached maxiter rtol s.
  Proof.
    intros Hd HM Ht. destruct magnetic_parts as (s & e0 & x0 & z0 & m0 & J0 & Es & Ew & Ef & Ep & Eo & Ae & Ax & Az & Am & AJ).
    pose proof (whole_solvable g true k0 Hg (fun _ => Hdim) (Rgt_not_eq _ _ Hk0)) as Hs.
    assert (is_magnetic (points_of g) x0 z0 m0 = true) as M0 by (rewrite (magnetic_agree _ _ _ _ _ _ _ (points_positive g (proj1 Hg)) Ax Az Am); exact Hmag).
    assert (forall G, vagree 3 (points_of g) (coupling x0 z0 nu G) (fun c p => kappa * G c p)) as C0.
    { intros G c p Hc Hp. rewrite (coupling_agree _ _ _ _ _ Ax Az nu G c p Hc Hp). apply Hcouple; assumption. }
    destruct (mr_ends eps u (sampled g) k0 e0 x0 z0 m0 nu settled thick J0 kappa 0 He H1 Hu Hs Hk0 (inverse_agree _ _ _ Am nu Hnu) M0 Hprec C0
      (dissipates_agree _ _ _ _ _ _ _ _ _ Ae Ax Az Am 0 Hd) (Rle_refl 0) s Ew Eo Ef Ep E H maxiter rtol w
      (proj2 (maxwell_agree _ _ _ _ _ _ _ _ _ Ae Ax Az Am u (sampled g) k0 E H J0 J eq_refl AJ) HM) Ht) as (fuel & y & EL & En).
    exists fuel, y. unfold solve. rewrite Es. cbn [bind]. split; [unfold solve_function, solve_method, chosen; rewrite EL; reflexivity|]. split.
    - destruct En as (i & Hi & _). apply Hi.
    - apply (ended_limit _ _ _ _ _ _ En).
  Qed.
  Lemma magnetic_accurate loss : (0 < loss)%R -> dissipates (points_of g) (plus_isotropic e chi) x z m loss ->
    exists E H K, maxwell u (sampled g) k0 (plus_isotropic e chi) x z m E H J /\
      (forall E' H', maxwell u (sampled g) k0 (plus_isotropic e chi) x z m E' H' J -> vagree 3 (points_of g) E' E /\ vagree 3 (points_of g) H' H) /\
      forall rtol, (0 < rtol)%R -> exists fuel s, solve u eps settled thick fuel q NoneGiven rtol None w = Ok (Some (Returned w s)) /\
        (magnitude s (fun c p => get_E s c p - E c p)%C <= K * rtol * magnitude s (get_E s))%R /\
        (magnitude s (fun c p => magnetizing_field u (operators s) (wavenumber s) (field s) c p - H c p)%C <= K * rtol * magnitude s (get_E s))%R.
  Proof.
    intros Hl Hd. destruct magnetic_parts as (s & e0 & x0 & z0 & m0 & J0 & Es & Ew & Ef & Ep & Eo & Ae & Ax & Az & Am & AJ).
    pose proof (whole_solvable g true k0 Hg (fun _ => Hdim) (Rgt_not_eq _ _ Hk0)) as Hs.
    assert (is_magnetic (points_of g) x0 z0 m0 = true) as M0 by (rewrite (magnetic_agree _ _ _ _ _ _ _ (points_positive g (proj1 Hg)) Ax Az Am); exact Hmag).
    assert (forall G, vagree 3 (points_of g) (coupling x0 z0 nu G) (fun c p => kappa * G c p)) as C0.
    { intros G c p Hc Hp. rewrite (coupling_agree _ _ _ _ _ Ax Az nu G c p Hc Hp). apply Hcouple; assumption. }
    pose proof (fun E H => maxwell_agree _ _ _ _ _ _ _ _ _ Ae Ax Az Am u (sampled g) k0 E H J0 J eq_refl AJ) as MA.
    destruct (mr_accurate eps u (sampled g) k0 e0 x0 z0 m0 nu settled thick J0 kappa loss He H1 Hu Hs Hk0 (inverse_agree _ _ _ Am nu Hnu) M0 Hprec C0
      (dissipates_agree _ _ _ _ _ _ _ _ _ Ae Ax Az Am loss Hd) (Rlt_le _ _ Hl) s Ew Eo Ef Ep w Hl) as (E & H & K & HM & HU & Hr).
    exists E, H, K. split; [apply MA, HM|]. split; [intros E' H' HM'; apply HU, MA, HM'|]. intros rtol Ht. destruct (Hr rtol Ht) as (fuel & y & EL & B1 & B2). exists fuel, y.
    split; [unfold solve; rewrite Es; cbn [bind]; unfold solve_function, solve_method, chosen; rewrite EL; reflexivity|]. split; [exact B1|exact B2].
  Qed.
End Results.
