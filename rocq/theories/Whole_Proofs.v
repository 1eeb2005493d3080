(** Proofs about the whole path from the arguments of solve to its result. *)
From Coq Require Import Reals Lra Lia List Arith ZArith Bool.
Require Import Verif.Base Verif.Num Verif.Grid_Model Verif.Grid_Spec Verif.Grid_Proofs Verif.Bound_Model Verif.Bound_Spec Verif.Bound_Proofs Verif.Setup_Model Verif.Setup_Proofs Verif.Entry_Model Verif.Entry_Spec Verif.Entry_Proofs.
Require Import Verif.Cplx Verif.CSum Verif.Field Verif.Fourier_Model Verif.Fourier_Spec Verif.Vec_Model Verif.Vec_Spec Verif.Vec_Grid Verif.Solver_Model Verif.Solver_Spec Verif.Solver_Proofs.
Require Import Verif.Derived_Model Verif.Derived_Spec Verif.Choice_Model Verif.Choice_Proofs Verif.Choice_Construct Verif.Array_Model Verif.Array_Spec Verif.Array_Proofs Verif.Array_Glue.
Require Import Verif.Material_Model Verif.Material_Spec Verif.Material_Proofs Verif.Material_More Verif.Run_Model Verif.Run_Spec Verif.Run_Glue Verif.Run_Converge.
Require Import Verif.Whole_Model Verif.Whole_Spec.
Import ListNotations.
Local Open Scope R_scope.
Local Open Scope C_scope.

Lemma raster_for_sampled h g : same_grid h g -> raster_for h = sampled g.
Proof.
  intros (N & _ & A). unfold raster_for, sampled, points_of. rewrite <- N. f_equal; apply map_ext_in; intros i Hi; apply in_seq in Hi; destruct (A i) as (A1 & A2 & _); try lia.
  - unfold Grid_Spec.points. rewrite A1. reflexivity.
  - exact A2.
Qed.
Lemma points_length g : length (points_of g) = ndim RN g.
Proof. unfold points_of. rewrite map_length, seq_length. reflexivity. Qed.
Lemma points_positive g : Grid_Spec.regular g -> List.Forall (fun n => 0 < n)%nat (points_of g).
Proof.
  intros (_ & _ & H). apply Forall_forall. intros n Hn. apply in_map_iff in Hn. destruct Hn as (i & <- & Hi). apply in_seq in Hi.
  unfold Grid_Spec.points.
  assert (1 <= shape RN g i)%Z by (apply H; lia). lia.
Qed.

(** The grid, and what functions are called with. *)
Lemma whole_grid g crd : Entry_Spec.spatial g -> (forall i, (i < ndim RN g)%nat -> coordinates g i = Ok (crd i)) ->
  exists h xs, solution_grid (AGrid g) = Ok h /\ same_grid h g /\ items h = Ok xs /\ forallb (Entry_Model.broadcasts (points_of g)) xs = true /\
    forall p, CSum.inside (points_of g) p -> map (fun c => at_index c p) xs = position g crd p.
Proof.
  intros Hg Hc. destruct (spatial_entry g 1 Hg R1_neq_R0) as (h & xs & _ & _ & E & Sh & Ei & (L & B & V) & _).
  exists h, xs. split; [exact E|]. split; [exact Sh|]. split; [exact Ei|]. split; [apply forallb_forall; exact B|].
  intros p Hp. unfold position. apply nth_ext with (d := 0%R) (d' := 0%R); rewrite !map_length, ?seq_length; [exact L|].
  rewrite L. intros i Hi. destruct (V i p Hi Hp) as (c & Ec & Ev). rewrite (nth_map_seq_d _ _ _ _ Hi).
  rewrite (nth_indep _ 0%R (at_index (Number 0) p)) by (rewrite map_length, L; exact Hi). rewrite map_nth with (f := fun c => at_index c p), (nth_error_nth _ _ _ Ec), Ev.
  pose proof (Hc i Hi) as Hci. rewrite (coordinates_range g i (proj1 Hg) Hi) in Hci. injection Hci as <-. reflexivity.
Qed.

Section Read.
  Variables (g h : grid RN) (crd : nat -> list R) (xs : list coords).
  Hypothesis Hi : items h = Ok xs.
  Hypothesis Hb : forallb (Entry_Model.broadcasts (points_of g)) xs = true.
  Hypothesis Hx : forall p, CSum.inside (points_of g) p -> map (fun c => at_index c p) xs = position g crd p.
  Let gs := points_of g.

  Lemma same_broadcasts a : ashape a = gs -> Array_Spec.broadcasts a gs.
  Proof. intros E. unfold Array_Spec.broadcasts, adim. rewrite E. split; [lia|]. rewrite lpad_same by reflexivity. apply spatial_refl. Qed.
  Lemma read_tensor x t : means_tensor g crd x t -> exists a, func2arr gs h x = Ok a /\ given gs a t.
  Proof.
    destruct x as [a|f|f]; cbn [means_tensor func2arr].
    - intros H. exists a. split; [reflexivity|exact H].
    - intros ->. rewrite Hi. cbn [bind]. unfold gs. rewrite Hb. eexists. split; [reflexivity|]. split.
      + split; [unfold adim; cbn; lia|]. unfold lpad. cbn [ashape length]. replace (Datatypes.S (Datatypes.S (length (points_of g))) - length (points_of g))%nat with 2%nat by lia.
        cbn. constructor; [left; reflexivity|]. constructor; [left; reflexivity|]. apply spatial_refl.
      + intros p Hp. unfold bget, adim. cbn [ashape aget length]. rewrite (Array_Proofs.inside_length _ _ Hp). replace (Datatypes.S (Datatypes.S (length (points_of g))) - length (points_of g))%nat with 2%nat by lia.
        cbn [skipn]. rewrite Array_Assign.inside_clip by exact Hp. rewrite Hx by exact Hp. reflexivity.
    - contradiction.
  Qed.
  Lemma read_vector v x F : means_vector g crd v x F -> let nv := (if v then 3 else 1)%nat in exists a, func2arr gs h x = Ok a /\
    Array_Spec.broadcasts a (nv :: gs) /\ forall c p, (c < nv)%nat -> CSum.inside gs p -> bget a (c :: p) = F c p.
  Proof.
    intros H nv. destruct x as [a|f|f]; cbn [means_vector func2arr] in *.
    - exists a. split; [reflexivity|exact H].
    - rewrite Hi. cbn [bind]. unfold gs. rewrite Hb. eexists. split; [reflexivity|]. split.
      + split; [unfold adim; cbn; lia|]. unfold lpad. cbn [ashape length]. replace (Datatypes.S (length (points_of g)) - length (points_of g))%nat with 1%nat by lia.
        cbn. constructor; [right; reflexivity|]. apply spatial_refl.
      + intros c p Hc Hp. rewrite H. unfold bget, adim. cbn [ashape aget length]. rewrite (Array_Proofs.inside_length _ _ Hp). replace (Datatypes.S (length (points_of g)) - length (points_of g))%nat with 1%nat by lia.
        cbn [skipn]. rewrite Array_Assign.inside_clip by exact Hp. rewrite Hx by exact Hp. reflexivity.
    - destruct H as [-> H]. rewrite Hi. cbn [bind]. unfold gs. rewrite Hb. eexists. split; [reflexivity|]. split.
      + split; [unfold adim; cbn; lia|]. rewrite lpad_same by reflexivity. cbn [ashape]. apply spatial_refl.
      + intros c p Hc Hp. rewrite H. unfold bget, adim. cbn [ashape aget length]. rewrite (Array_Proofs.inside_length _ _ Hp), Nat.sub_diag.
        cbn [skipn]. rewrite Array_Assign.inside_clip by (constructor; [exact Hc|exact Hp]). cbn [tl nth]. rewrite Hx by exact Hp. reflexivity.
  Qed.
  Lemma read_kind x a : func2arr gs h x = Ok a -> (choose_vectorial gs None {| sshape := ashape a; stype := DComplex128 |} = true <-> vector_valued g x).
  Proof.
    intros E. rewrite Setup_Proofs.vectorial_shape by exact true. cbn [sshape]. unfold gs. rewrite points_length. destruct x as [b|f|f]; cbn [func2arr vector_valued] in *.
    - injection E as ->. reflexivity.
    - rewrite Hi in E. cbn [bind] in E. unfold gs in E. rewrite Hb in E. injection E as <-. cbn [ashape]. split; [|contradiction]. intros (t & E & L).
      pose proof (f_equal (@length nat) E) as E'. rewrite points_length in E'. cbn in E'. lia.
    - rewrite Hi in E. cbn [bind] in E. unfold gs in E. rewrite Hb in E. injection E as <-. cbn [ashape]. split; [trivial|]. intros _. exists (points_of g). split; [reflexivity|].
      rewrite points_length. lia.
  Qed.
End Read.

(** The boundary. *)
Lemma csqrt_principal z : principal_root z (csqrt z).
Proof.
  split; [apply csqrt_sq|]. destruct (csqrt_Re z) as [H|H]; [left; exact H|right]. split; [symmetry; exact H|].
  pose proof (f_equal snd (csqrt_sq z)) as E. cbn [snd Cmult] in E. unfold Cmult in E. cbn [snd] in E. rewrite <- H in E. apply csqrt_Im_sign. lra.
Qed.
Lemma principal_unique z n m : principal_root z n -> principal_root z m -> n = m.
Proof.
  intros [En Pn] [Em Pm]. assert ((n - m) * (n + m) = 0) as E by (transitivity (n * n - m * m); [ring|rewrite En, Em; ring]).
  pose proof (f_equal Cmod E) as E'. rewrite Cmod_mult, Cmod_0 in E'. destruct (Rmult_integral _ _ E') as [H|H]; apply Cmod_eq_0 in H.
  - transitivity (n - m + m); [ring|rewrite H; ring].
  - assert (n = - m) as K by (transitivity (n + m - m); [ring|rewrite H; ring]). rewrite K in Pn. cbn [fst snd Copp] in Pn. destruct m as [a b]. cbn [fst snd Copp] in *. rewrite K. apply C_eq; cbn; lra.
Qed.
Lemma largest_unique x y P : largest x P -> largest y P -> x = y.
Proof. intros (A1 & A2 & A3) (B1 & B2 & B3). apply Rle_antisym; [destruct A3 as [->|A3]; [exact B1|apply B2, A3]|destruct B3 as [->|B3]; [exact A1|apply A2, B3]]. Qed.
Lemma inside_axes g p : CSum.inside (points_of g) p -> Bound_Spec.inside g (fun a => nth a p 0%nat).
Proof.
  intros H a Ha. pose proof (nth_in_inside _ _ a H) as K. rewrite points_length in K. unfold points_of in K. rewrite nth_map_seq_d in K by exact Ha. apply K, Ha.
Qed.
Lemma read_boundary g q chi : asked_boundary g q chi -> match q_bound q with
  | None => bound_array (q_bound q) = Ok None /\ forall p, chi p = 0
  | Some _ => exists a, bound_array (q_bound q) = Ok (Some a) /\ susceptibility (points_of g) a chi
  end.
Proof.
  unfold asked_boundary. destruct (q_bound q) as [[b bg]|]; [|intros H; split; [reflexivity|exact H]].
  intros (t & f & U & E & H). destruct (absorbing_extinction g t f b U E) as (kappa & Ek & Hk). cbn [bound_array]. rewrite Ek. cbn [bind].
  destruct (absorbing_inv _ _ _ _ E) as (Eg & _). eexists. split; [reflexivity|]. subst g. split.
  - cbn [ashape raster_for rshape]. apply spatial_refl.
  - intros p Hp. unfold element. cbn [ashape aget raster_for rshape]. fold (points_of (b_grid RN b)).
    rewrite Array_Assign.inside_clip by exact Hp. destruct (H p Hp) as (n & k & Hn & -> & Hl). rewrite (principal_unique _ _ _ Hn (csqrt_principal bg)).
    rewrite (largest_unique _ _ _ Hl (Hk _ (inside_axes _ p Hp))). reflexivity.
Qed.

(** The material. *)
Definition tagree (gs : list nat) (t t' : tensor) : Prop :=
  match t, t' with
  | TScalar f, TScalar f' => forall p, CSum.inside gs p -> f p = f' p
  | TMatrix m, TMatrix m' => forall i j p, (i < 3)%nat -> (j < 3)%nat -> CSum.inside gs p -> m i j p = m' i j p
  | _, _ => False
  end.
Lemma tensor_of_agrees gs a t : represents gs a t -> tagree gs (tensor_of a) t.
Proof.
  destruct t as [f|m].
  - intros (s & E & Hs & H). unfold tensor_of. rewrite (is_scalar_shape a 1 1 s E). cbn. intros p Hp. rewrite bget_same; [apply H, Hp|].
    unfold adim. rewrite E. cbn. rewrite (Array_Proofs.inside_length _ _ Hp), (spatial_length _ _ Hs). reflexivity.
  - intros (s & E & Hs & H). unfold tensor_of. rewrite (is_scalar_shape a 3 3 s E). cbn. intros i j p Hi Hj Hp. rewrite bget_same; [apply H; assumption|].
    unfold adim. rewrite E. cbn. rewrite (Array_Proofs.inside_length _ _ Hp), (spatial_length _ _ Hs). reflexivity.
Qed.
Lemma tagree_apply gs n t t' F c p : tagree gs t t' -> (n = 3)%nat \/ (match t with TScalar _ => True | TMatrix _ => False end) -> (c < n)%nat -> CSum.inside gs p ->
  tapply t F c p = tapply t' F c p.
Proof.
  destruct t as [f|m], t' as [f'|m']; cbn [tagree tapply]; intros H Hn Hc Hp; try contradiction.
  - rewrite H by exact Hp. reflexivity.
  - destruct Hn as [->|[]]. rewrite !csum3, !(H c _ p) by (lia || exact Hp). reflexivity.
Qed.
Lemma tensor_of_number nd x : tensor_of (to_matrix_field nd (number x)) = tuniform x.
Proof.
  destruct (tmf_number nd x) as [E V]. unfold tensor_of. rewrite (is_scalar_shape _ 1 1 (repeat 1%nat nd) E). cbn. unfold tuniform. f_equal.
  apply FunctionalExtensionality.functional_extensionality. intros p. unfold bget. apply V.
Qed.
Lemma index_kept gs n mu t : List.Forall (fun k => 0 < k)%nat gs -> given gs n t -> (forall p, CSum.inside gs p -> ~ negative_index t p) ->
  exists e, from_index (length gs) n mu = Ok (e, mu) /\ given gs e (square t).
Proof.
  intros Hg Hn Hp. unfold from_index. cbv zeta. pose proof (given_rep gs n t Hn) as Hr. set (a := to_matrix_field (length gs) n) in *.
  destruct (mul_rep gs a a t t Hr Hr) as (e & Ee & He). rewrite Ee. cbn [bind]. apply rep_given in He.
  assert (given gs e (square t)) as Ge.
  { apply (given_agree gs e _ _ He). destruct t; cbn; intros; [ring|]. ring. }
  destruct t as [f|m].
  - destruct Hr as (s & Es & Hs & Hf). destruct (any_over _ _) eqn:An.
    + exfalso. apply any_over_spec in An. destruct An as (p & Ip & F). rewrite Es in Ip. inversion Ip as [|? i ? p1 Hi Ip1]; subst. inversion Ip1 as [|? j ? p2 Hj Ip2]; subst.
      assert (i = 0%nat) as -> by lia. assert (j = 0%nat) as -> by lia.
      assert (CSum.inside gs p2) as J.
      { clear - Hg Hs Ip2. revert p2 Ip2. induction Hs as [|n d gs s Hd Hs IH]; intros p Ip; inversion Ip; subst; [constructor|]. inversion Hg; subst. constructor; [lia|]. apply IH; assumption. }
      specialize (Hp p2 J). specialize (Hf p2 J). cbn in Hp. unfold element in Hf. rewrite Es in Hf. cbn [clip Nat.eqb] in Hf. rewrite Array_Assign.inside_clip in Hf by exact Ip2.
      rewrite Hf in F. destruct (Rlt_dec (fst (f p2)) 0); [contradiction|discriminate].
    + rewrite andb_false_r. exists e. split; [reflexivity|exact Ge].
  - destruct Hr as (s & Es & Hs & Hm). rewrite (is_scalar_shape a 3 3 s Es). cbn [Nat.eqb andb]. exists e. split; [reflexivity|exact Ge].
Qed.

Section Whole.
  Variables (u : si) (eps : R) (settled : R * R) (thick : option R) (q : request) (g : grid RN) (crd : nat -> list R) (v : bool) (k0 m : R)
    (src : vfield) (t : tensor) (chi : list nat -> C).
  Let gs := points_of g.
  Let n := (if v then 3 else 1)%nat.
  Hypothesis Hc : (0 < c_light u)%R.
  Hypothesis Hq : q_grid q = AGrid g.
  Hypothesis Hg : Entry_Spec.spatial g.
  Hypothesis Hcrd : forall i, (i < ndim RN g)%nat -> coordinates g i = Ok (crd i).
  Hypothesis Hxi : q_xi q = GivenArray (number 0).
  Hypothesis Hzeta : q_zeta q = GivenArray (number 0).
  Hypothesis Hmu : q_mu q = GivenArray (number (RtoC m)).
  Hypothesis Hk : asked_wavenumber u q k0.
  Hypothesis Hkind : asked_kind g q v.
  Hypothesis Hsrc : asked_source u g crd k0 q v src.
  Hypothesis Hmed : asked_medium g crd q t.
  Hypothesis Hchi : asked_boundary g q chi.
  Hypothesis Hfit : fits v t.

  Lemma whole_wavenumber : choose_wavenumber (c_light u) (q_angular_frequency q) (q_vacuum_wavelength q) (q_wavenumber q) = k0.
  Proof.
    unfold asked_wavenumber, choose_wavenumber in *. destruct (q_angular_frequency q) as [w|]; [|destruct (q_vacuum_wavelength q) as [l|]].
    - rewrite <- Hk. field. lra.
    - destruct Hk as [Hl E]. rewrite <- E. field. lra.
    - symmetry. exact Hk.
  Qed.
  Lemma whole_source h : raster_for h = sampled g -> forall xs, items h = Ok xs -> forallb (Entry_Model.broadcasts (points_of g)) xs = true ->
    (forall p, CSum.inside (points_of g) p -> map (fun c => at_index c p) xs = position g crd p) ->
    exists a o, read_source u h k0 q = Ok (a, o) /\ choose_vectorial gs o {| sshape := ashape a; stype := DComplex128 |} = v /\ vagree n gs (vector_of (ndim RN g) a) src.
  Proof.
    intros Er xs Hi Hb Hx. unfold read_source. rewrite Er. cbn [rshape sampled]. fold gs.
    assert (forall a F, Array_Spec.broadcasts a (n :: gs) -> (forall c p, (c < n)%nat -> CSum.inside gs p -> bget a (c :: p) = F c p) -> vagree n gs (vector_of (ndim RN g) a) F) as Hvec.
    { intros a F B H. assert (1 <= n)%nat as N1 by (unfold n; destruct v; lia). destruct (broadcast_form n gs a N1 B) as (mm & s & E & _ & Hs & V). intros c p Hcn Hp.
      rewrite <- (H c p Hcn Hp), <- (V c p Hcn Hp). unfold vector_of, component. rewrite <- (points_length g). fold gs. apply bget_same.
      unfold adim. rewrite E. cbn. rewrite (Array_Proofs.inside_length _ _ Hp), (spatial_length _ _ Hs). reflexivity. }
    assert (forall x a o, func2arr gs h x = Ok a -> o = q_vectorial q -> (q_vectorial q = None -> v = true <-> vector_valued g x) -> (forall b, q_vectorial q = Some b -> v = b) ->
      forall a', ashape a' = ashape a -> choose_vectorial gs o {| sshape := ashape a'; stype := DComplex128 |} = v) as Hkd.
    { intros x a o E -> H0 H1 a' ->. destruct (q_vectorial q) as [b|].
      - cbn. symmetry. apply H1. reflexivity.
      - pose proof (read_kind g h crd xs Hi Hb Hx x a E) as K. specialize (H0 eq_refl). apply eq_true_iff_eq. etransitivity; [exact K|]. symmetry. exact H0. }
    assert (forall b, q_vectorial q = Some b -> v = b) as Hb' by (intros b Eb; unfold asked_kind in Hkind; rewrite Eb in Hkind; exact Hkind).
    unfold asked_source in Hsrc. unfold asked_kind in Hkind. destruct (q_source_distribution q) as [x|] eqn:Es.
    - destruct (read_vector g h crd xs Hi Hb Hx v x src Hsrc) as (a & Ea & Ba & Va). fold gs in Ea. rewrite Ea. cbn [rmap bind]. exists a, (q_vectorial q). split; [reflexivity|]. split.
      + apply (Hkd x a _ Ea eq_refl); [|exact Hb'|reflexivity]. intros E. rewrite E in Hkind. exact Hkind.
      + apply Hvec; assumption.
    - destruct (q_current_density q) as [x|] eqn:Ec.
      + destruct Hsrc as (J & HJ & HS). destruct (read_vector g h crd xs Hi Hb Hx v x J HJ) as (a & Ea & Ba & Va). fold gs in Ea. rewrite Ea. cbn [rmap bind fst snd]. eexists. exists (q_vectorial q). split; [reflexivity|]. split.
        * apply (Hkd x a _ Ea eq_refl); [|exact Hb'|reflexivity]. intros E. rewrite E in Hkind. exact Hkind.
        * apply Hvec; [apply broadcasts_amap; exact Ba|]. intros c p Hcn Hp. rewrite bget_amap, (Va c p Hcn Hp), HS. unfold angular_frequency. ring.
      + set (b := match q_vectorial q with Some b => b | None => true end). assert (b = v) as -> by (unfold b; destruct (q_vectorial q); symmetry; exact Hkind).
        cbn [bind fst snd]. eexists. exists (Some v). split; [reflexivity|]. split; [reflexivity|]. apply Hvec.
        * apply broadcasts_amap. unfold Array_Spec.broadcasts, adim. cbn [ashape]. split; [cbn; lia|]. rewrite lpad_same by reflexivity. apply spatial_refl.
        * intros c p Hcn Hp. rewrite bget_amap, Hsrc. unfold bget. cbn [aget]. ring.
  Qed.
  Lemma whole_material h xs : items h = Ok xs -> forallb (Entry_Model.broadcasts (points_of g)) xs = true ->
    (forall p, CSum.inside (points_of g) p -> map (fun c => at_index c p) xs = position g crd p) ->
    exists e i c a, optional gs h (q_epsilon q) = Ok e /\ (match q_epsilon q with Some _ => Ok None | None => optional gs h (q_refractive_index q) end) = Ok i /\ bound_array (q_bound q) = Ok c /\
      read_materials n (ndim RN g) e i (number (RtoC m)) {| b_electric := c; b_magnetic := None |} = Ok (a, to_matrix_field (ndim RN g) (number (RtoC m))) /\
      represents gs a (plus_isotropic t chi).
  Proof.
    intros Hi Hb Hx. pose proof (read_boundary g q chi Hchi) as Hbd.
    assert (exists c, bound_array (q_bound q) = Ok c /\ forall a, given gs a t ->
      exists a', (match c with Some x => add_electric n (ndim RN g) a x | None => Ok a end) = Ok a' /\ given gs a' (plus_isotropic t chi)) as (c & Ecb & Hadd).
    { destruct (q_bound q) as [b|].
      - destruct Hbd as (x & Ex & Sx). exists (Some x). split; [exact Ex|]. intros a Ga. rewrite <- (points_length g). apply electric_added; [|exact Ga|exact Sx].
        unfold n. destruct v; [right; reflexivity|left; split; [reflexivity|]]. destruct t; [eexists; reflexivity|discriminate].
      - destruct Hbd as [Ex Zx]. exists None. split; [exact Ex|]. intros a Ga. exists a. split; [reflexivity|]. apply (given_agree gs a t _ Ga). destruct t; cbn; intros.
        + rewrite Zx. ring.
        + rewrite Zx. destruct (_ =? _)%nat; ring. }
    assert (exists e i e0, optional gs h (q_epsilon q) = Ok e /\ (match q_epsilon q with Some _ => Ok None | None => optional gs h (q_refractive_index q) end) = Ok i /\
      (match e with Some e => Ok (e, number (RtoC m)) | None => from_index (ndim RN g) match i with Some n => n | None => number 1 end (number (RtoC m)) end) = Ok (e0, number (RtoC m)) /\ given gs e0 t)
      as (e & i & e0 & Ee & Ei & E0 & G0).
    { unfold asked_medium in Hmed. destruct (q_epsilon q) as [x|].
      - destruct (read_tensor g h crd xs Hi Hb Hx x t Hmed) as (a & Ea & Ga). fold gs in Ea. exists (Some a), None, a. cbn [optional]. rewrite Ea. split; [reflexivity|]. split; [reflexivity|]. split; [reflexivity|exact Ga].
      - destruct (q_refractive_index q) as [x|].
        + destruct Hmed as (ti & Ht & -> & Hpos). destruct (read_tensor g h crd xs Hi Hb Hx x ti Ht) as (a & Ea & Ga). fold gs in Ea.
          destruct (index_kept gs a (number (RtoC m)) ti (points_positive g (proj1 Hg)) Ga Hpos) as (e0 & E0 & G0).
          exists None, (Some a), e0. cbn [optional]. rewrite Ea. split; [reflexivity|]. split; [reflexivity|]. split; [|exact G0]. rewrite <- (points_length g). exact E0.
        + rewrite Hmed. destruct (index_kept gs (number 1) (number (RtoC m)) (TScalar (fun _ => 1)) (points_positive g (proj1 Hg)) (given_number gs 1)) as (e0 & E0 & G0).
          { intros p _ Hn. cbn in Hn. lra. }
          exists None, None, e0. cbn [optional]. split; [reflexivity|]. split; [reflexivity|]. split; [rewrite <- (points_length g); exact E0|].
          apply (given_agree gs e0 _ _ G0). cbn. intros. ring. }
    destruct (Hadd e0 G0) as (a' & Ea' & Ga'). exists e, i, c, (to_matrix_field (ndim RN g) a').
    refine (conj Ee (conj Ei (conj Ecb (conj _ _)))).
    - unfold read_materials. rewrite E0. cbn [bind fst snd b_electric b_magnetic]. rewrite Ea'. cbn [bind]. reflexivity.
    - rewrite <- (points_length g). apply given_rep. exact Ga'.
  Qed.
  Lemma whole_solution : exists s e0 S0, new_solution u eps settled thick q = Ok s /\ wavenumber s = k0 /\ (forall c p, field s c p = 0) /\ prev_norm s = Inf /\
    operators s = Choice_Model.construct eps (sampled g) k0 v e0 tzero tzero (tuniform (RtoC m)) settled thick S0 /\
    tagree gs e0 (plus_isotropic t chi) /\ vagree n gs S0 src.
  Proof.
    destruct (whole_grid g crd Hg Hcrd) as (h & xs & Eh & Sh & Hi & Hb & Hx). pose proof (raster_for_sampled h g Sh) as Er.
    destruct (whole_source h Er xs Hi Hb Hx) as (a & o & Es & Ev & Hv). destruct (whole_material h xs Hi Hb Hx) as (e & i & c & a' & Ee & Ei & Ecb & Em & Ra).
    pose proof (proj1 Sh) as En. unfold new_solution. rewrite Hq, Eh. cbn [bind]. rewrite Er, whole_wavenumber, En. cbn [rshape sampled]. fold gs. rewrite Es. cbn [bind fst snd]. rewrite Hmu, Hxi, Hzeta. cbn [func2arr bind]. rewrite Ee. cbn [bind]. rewrite Ei. cbn [bind]. rewrite Ecb. cbn [bind].
    rewrite Ev. fold n. rewrite Em. cbn [bind fst snd]. rewrite !tensor_of_number. eexists. exists (tensor_of a'), (vector_of (ndim RN g) a). split; [reflexivity|]. cbn [wavenumber field prev_norm operators].
    refine (conj eq_refl (conj (fun _ _ => eq_refl) (conj eq_refl (conj eq_refl (conj (tensor_of_agrees gs a' _ Ra) Hv))))).
  Qed.
End Whole.
