(** Grids that are rebuilt from shape, step and centre: views, arithmetic, projections, products, frequency grids and
    from_ranges all end in such a constructor call. *)
From Coq Require Import Reals Lra Lia List Permutation ZifyBool ZifyNat.
From Flocq Require Import Core.Raux.
From Verif Require Import Base Num Grid_Model Grid_Spec Grid_Proofs.
Local Open Scope R_scope.
Ltac Zify.zify_post_hook ::= Z.div_mod_to_equations.

Definition arg_is (n : nat) (multi : bool) (a : arg RN) (d : dt) (f : nat -> R) : Prop :=
  (exists v, to_ndim RN n a = Ok v /\ tag RN v = d /\ forall i, (i < n)%nat -> at_ RN v i = f i) /\
  arg_size RN a = n /\ is_vector RN (Some a) = multi.
Definition flag_is (n : nat) (b : barg) (f : nat -> bool) : Prop :=
  exists v, to_ndim_b n b = Ok v /\ forall i, (i < n)%nat -> v i = f i.

Lemma arg_is_list n d (l : list R) : length l = n -> arg_is n true (AVector RN d l) d (fun i => nth i l 0).
Proof. intros H. split; [apply to_ndim_list; assumption|]. split; [exact H|reflexivity]. Qed.
Lemma arg_is_map {A} d (f : A -> R) (l : list A) n x0 :
  length l = n -> arg_is n true (AVector RN d (map f l)) d (fun i => f (nth i l x0)).
Proof.
  intros H. destruct (to_ndim_list n d (map f l)) as (v & E & T & V); [rewrite map_length; assumption|].
  split; [|split; [simpl; rewrite map_length; assumption|reflexivity]].
  exists v. split; [assumption|]. split; [assumption|]. intros i Hi. rewrite V by assumption.
  rewrite nth_indep with (d' := f x0) by (rewrite map_length; lia). apply map_nth.
Qed.
Lemma arg_is_ext n m a d f f' : arg_is n m a d f -> (forall i, (i < n)%nat -> f i = f' i) -> arg_is n m a d f'.
Proof.
  intros ((v & E & T & V) & S) H. split; [|assumption]. exists v. split; [assumption|]. split; [assumption|].
  intros i Hi. rewrite V by assumption. apply H. assumption.
Qed.
Lemma flag_is_ext n b f f' : flag_is n b f -> (forall i, (i < n)%nat -> f i = f' i) -> flag_is n b f'.
Proof. intros (v & E & V) H. exists v. split; [assumption|]. intros i Hi. rewrite V by assumption. apply H. assumption. Qed.
Lemma flag_is_list {A} (f : A -> bool) (l : list A) n x0 : length l = n -> flag_is n (BVector (map f l)) (fun i => f (nth i l x0)).
Proof.
  intros H. destruct (to_ndim_b_list n (map f l)) as (v & E & V); [rewrite map_length; assumption|].
  exists v. split; [assumption|]. intros i Hi. rewrite V by assumption.
  rewrite nth_indep with (d' := f x0) by (rewrite map_length; lia). apply map_nth.
Qed.
Lemma flag_is_scalar n b : flag_is n (BScalar b) (fun _ => b).
Proof. eexists. split; [reflexivity|reflexivity]. Qed.

Lemma axes_length n : length (axes n) = n.
Proof. apply seq_length. Qed.
Lemma axes_nth n i : (i < n)%nat -> nth i (axes n) 0%nat = i.
Proof. intros. unfold axes. rewrite seq_nth; lia. Qed.

Lemma arg_is_vec g d f : regular g -> arg_is (ndim RN g) (multidimensional RN g) (vec_arg RN g d f) d f.
Proof.
  intros (Hs & Hm & Hsh). unfold vec_arg. destruct (multidimensional RN g) eqn:E.
  - eapply arg_is_ext; [apply (arg_is_map d f (axes (ndim RN g)) _ 0%nat); apply axes_length|].
    intros i Hi. cbn beta. rewrite axes_nth by assumption. reflexivity.
  - rewrite (Hm eq_refl). split; [|split; reflexivity]. eexists. split; [reflexivity|]. split; [reflexivity|].
    intros i Hi. cbn. assert (i = 0%nat) as -> by lia. reflexivity.
Qed.
Lemma arg_is_step g s : regular g ->
  arg_is (ndim RN g) (multidimensional RN g) (step_arg RN g s) (tag RN s) (at_ RN s).
Proof.
  intros Hg. pose proof (arg_is_vec g (tag RN s) (at_ RN s) Hg) as H. destruct Hg as (Hs & _ & _).
  unfold step_arg, vec_arg in *. rewrite Hs. exact H.
Qed.
Lemma flag_is_arg g f : regular g -> flag_is (ndim RN g) (flag_arg RN g f) f.
Proof.
  intros (Hs & Hm & Hsh). unfold flag_arg. destruct (multidimensional RN g) eqn:E.
  - eapply flag_is_ext; [apply (flag_is_list f (axes (ndim RN g)) _ 0%nat); apply axes_length|].
    intros i Hi. cbn beta. rewrite axes_nth by assumption. reflexivity.
  - rewrite (Hm eq_refl). eexists. split; [reflexivity|]. intros i Hi. assert (i = 0%nat) as -> by lia. reflexivity.
Qed.

(** The general lemma. *)
Lemma rebuild n multi sa ds ss ta dt' st ca dc c fa fl oa oac xa cai ilast :
  arg_is n multi sa ds (fun i => IZR (ss i)) -> (forall i, (i < n)%nat -> (1 <= ss i)%Z) ->
  arg_is n multi ta dt' st ->
  match ca with Some ca => arg_is n multi ca dc c | None => c = (fun _ => 0) /\ dc = DInt end ->
  flag_is n fa fl -> flag_is n oa oac -> flag_is n xa cai -> (multi = false -> n = 1%nat) ->
  exists h,
    construct RN {| a_shape := Some sa; a_step := Some ta; a_extent := None; a_first := None; a_center := ca;
                    a_last := None; a_include_last := BScalar ilast; a_ndim := None;
                    a_flat := fa; a_origin_at_center := oa; a_center_at_index := xa |} = Ok h /\
    regular h /\ ndim RN h = n /\ multidimensional RN h = multi /\
    (forall i, (i < n)%nat -> shape RN h i = ss i /\ step_of h i = st i /\ center_of h i = c i /\
        flat RN h i = fl i /\ origin_at_center RN h i = oac i /\ center_at_index RN h i = cai i) /\
    (n <> 0%nat -> tag RN (step RN h) = join dt' dc /\ tag RN (center RN h) = join dt' dc).
Proof.
  intros ((vs & Es & Ts & Vs) & Zs & Ms) Hss ((vt & Et & Tt & Vt) & Zt & Mt) Hc (vf & Ef & Vf) (vo & Eo & Vo) (vx & Ex & Vx) Hn.
  set (a := {| a_shape := Some sa |}).
  assert (exists vc, to_ndim_opt RN n ca = Ok vc /\ tag RN (match vc with Some v => v | None => vconst RN DInt (nofZ RN 0) end) = dc /\
     (forall i, (i < n)%nat -> at_ RN (match vc with Some v => v | None => vconst RN DInt (nofZ RN 0) end) i = c i) /\
     match ca with Some ca => arg_size RN ca = n | None => True end /\
     (is_vector RN ca = multi \/ is_vector RN ca = false)) as (vc & Ec & Tc & Vc & Zc & Mc).
  { destruct ca as [ca|].
    - destruct Hc as ((v & E & T & V) & Z & M). exists (Some v). simpl to_ndim_opt. rewrite E. repeat split; auto.
    - destruct Hc as (-> & ->). exists None. repeat split; auto. }
  assert (ndim_of RN a = n) as En.
  { unfold ndim_of, a. cbn [a_ndim a_shape a_step a_extent a_first a_center a_last]. rewrite Zs, Zt.
    destruct ca; [rewrite Zc|]; lia. }
  assert (multidimensional_of RN a = multi) as Em.
  { unfold multidimensional_of, a. cbn [a_ndim a_shape a_step a_extent a_first a_center a_last]. rewrite Ms, Mt.
    destruct Mc as [-> | ->]; destruct multi; reflexivity. }
  unfold construct. cbv zeta. rewrite En. unfold a. cbn [a_ndim a_shape a_step a_extent a_first a_center a_last a_flat a_origin_at_center a_include_last a_center_at_index].
  unfold to_ndim_opt at 1 2. rewrite Es, Et. cbn [rmap bind]. unfold to_ndim_opt at 1 2 4. cbn [bind]. rewrite Ec. cbn [bind].
  rewrite Ef, Eo, Ex. cbn [bind]. change (to_ndim_b n (BScalar ilast)) with (Ok (fun _ : nat => ilast)). cbn [bind].
  unfold find_shape. cbn [v_shape bind].
  unfold find_step. cbn [v_step bind].
  unfold find_center. cbn [v_center v_first v_last].
  replace (match vc with Some c0 => Ok c0 | None => Ok (vconst RN DInt (nofZ RN 0)) end)
    with (Ok (match vc with Some c0 => c0 | None => vconst RN DInt (nofZ RN 0) end)) by (destruct vc; reflexivity).
  cbn [bind]. unfold check_extent, check_last, check_first. cbn [v_extent v_first v_last bind py_step].
  eexists. split; [reflexivity|].
  assert (forall i, (i < n)%nat -> round_shape RN vs i = ss i) as Hr.
  { intros i Hi. unfold round_shape. rewrite Vs by assumption. rewrite nceil_IZR. specialize (Hss i Hi). lia. }
  split.
  { split; [reflexivity|]. cbn [multidimensional ndim shape]. split.
    - fold a. rewrite Em. exact Hn.
    - intros i Hi. rewrite Hr by assumption. apply Hss. assumption. }
  cbn [ndim multidimensional]. split; [reflexivity|]. split; [exact Em|]. split.
  - intros i Hi. unfold step_of, center_of. cbn [shape step center flat origin_at_center center_at_index at_].
    split; [apply Hr; assumption|]. split; [apply Vt; assumption|]. split; [apply Vc; assumption|].
    split; [apply Vf; assumption|]. split; [apply Vo; assumption|apply Vx; assumption].
  - intros Hn0. cbn [step center tag]. apply Nat.eqb_neq in Hn0. rewrite Hn0, Tt, Tc. split; reflexivity.
Qed.

(* ---------- coordinates of rebuilt grids ---------- *)
Lemma axis_range_shift g a h b :
  shape RN g a = shape RN h b -> (1 <= shape RN g a)%Z -> origin_at_center RN g a = origin_at_center RN h b ->
  center_at_index RN g a = center_at_index RN h b ->
  forall m t, step_of h b = m * step_of g a -> center_of h b = m * center_of g a + t ->
  axis_range RN h b = map (fun x => m * x + t) (axis_range RN g a).
Proof.
  intros E1 H1 E2 E3 m t E4 E5.
  apply nth_ext with (d := 0) (d' := m * 0 + t).
  - rewrite map_length, !axis_range_length. unfold points. congruence.
  - intros j Hj. rewrite axis_range_length in Hj.
    rewrite (map_nth (fun x => m * x + t)).
    rewrite axis_range_nth by (congruence || assumption). rewrite axis_range_nth by (unfold points in *; congruence || assumption).
    rewrite !first_from_center. unfold points. rewrite <- E1, <- E2, <- E3, E4, E5. rn. ring.
Qed.

Lemma axis_range_same g a h b :
  shape RN g a = shape RN h b -> (1 <= shape RN g a)%Z -> origin_at_center RN g a = origin_at_center RN h b ->
  center_at_index RN g a = center_at_index RN h b ->
  step_of h b = step_of g a -> center_of h b = center_of g a -> axis_range RN h b = axis_range RN g a.
Proof.
  intros. rewrite (axis_range_shift g a h b) with (m := 1) (t := 0); auto; try lra.
  erewrite map_ext; [apply map_id|]. intros x. cbn. lra.
Qed.

(* ---------- views (C06) ---------- *)
Definition mono (g : grid RN) (a : nat) : list R :=
  map (fun j => first RN g a + INR j * step_of g a) (seq 0 (points g a)).

Lemma dict_rebuild g fa fl oa oac :
  regular g -> flag_is (ndim RN g) fa fl -> flag_is (ndim RN g) oa oac ->
  exists h, construct RN {| a_shape := Some (vec_arg RN g DInt (fun i => nofZ RN (shape RN g i)));
       a_step := Some (step_arg RN g (step RN g));
       a_extent := None; a_first := None;
       a_center := Some (vec_arg RN g (tag RN (center RN g)) (at_ RN (center RN g)));
       a_last := None; a_include_last := BScalar false; a_ndim := None;
       a_flat := fa; a_origin_at_center := oa;
       a_center_at_index := flag_arg RN g (center_at_index RN g) |} = Ok h /\
   regular h /\ ndim RN h = ndim RN g /\ multidimensional RN h = multidimensional RN g /\
   (forall i, (i < ndim RN g)%nat -> shape RN h i = shape RN g i /\ step_of h i = step_of g i /\ center_of h i = center_of g i /\
        flat RN h i = fl i /\ origin_at_center RN h i = oac i /\ center_at_index RN h i = center_at_index RN g i).
Proof.
  intros Hg Hf Ho.
  destruct (rebuild (ndim RN g) (multidimensional RN g) (vec_arg RN g DInt (fun i => nofZ RN (shape RN g i))) DInt (shape RN g)
     (step_arg RN g (step RN g)) (tag RN (step RN g)) (at_ RN (step RN g))
     (Some (vec_arg RN g (tag RN (center RN g)) (at_ RN (center RN g)))) (tag RN (center RN g)) (at_ RN (center RN g))
     fa fl oa oac (flag_arg RN g (center_at_index RN g)) (center_at_index RN g) false) as (h & E & R & N & M & V & T).
  - apply (arg_is_vec g DInt (fun i => nofZ RN (shape RN g i))). assumption.
  - apply Hg.
  - apply arg_is_step. assumption.
  - apply arg_is_vec. assumption.
  - assumption.
  - assumption.
  - apply flag_is_arg. assumption.
  - apply Hg.
  - exists h. repeat (split; [assumption|]). exact V.
Qed.

Theorem views_ok g :
  regular g ->
  (exists h, immutable RN g = Ok h /\ regular h /\ same_grid h g) /\
  (exists h, as_flat RN g = Ok h /\ regular h /\ ndim RN h = ndim RN g /\
     forall i, (i < ndim RN g)%nat -> coordinates h i = coordinates g i /\ flat RN h i = true) /\
  (exists h, as_non_flat RN g = Ok h /\ regular h /\ ndim RN h = ndim RN g /\
     forall i, (i < ndim RN g)%nat -> coordinates h i = coordinates g i /\ flat RN h i = false) /\
  (exists h, as_origin_at_center RN g = Ok h /\ regular h /\ ndim RN h = ndim RN g /\
     forall i, (i < ndim RN g)%nat -> coordinates h i = Ok (mono g i) /\ flat RN h i = flat RN g i) /\
  (exists h, as_origin_at_0 RN g = Ok h /\ regular h /\ ndim RN h = ndim RN g /\
     forall i, (i < ndim RN g)%nat -> flat RN h i = flat RN g i /\
       exists l, coordinates h i = Ok l /\ Permutation l (mono g i) /\
         forall j, (j < points g i)%nat -> nth j l 0 = nth ((j + points g i / 2) mod points g i) (mono g i) 0).
Proof.
  intros Hg.
  assert (forall h b i, regular h -> ndim RN h = ndim RN g -> (i < ndim RN g)%nat -> shape RN h i = shape RN g i -> step_of h i = step_of g i ->
    center_of h i = center_of g i -> center_at_index RN h i = center_at_index RN g i -> origin_at_center RN h i = b ->
    coordinates h i = Ok (if b then mono g i else ifftshift (mono g i))) as Hmono.
  { intros h b i Hh N Hi S T C X O. rewrite coordinates_range by (assumption || lia). f_equal. rewrite <- O.
    unfold axis_range. assert (map (raw_coordinate RN h i) (seq 0 (Z.to_nat (shape RN h i))) = mono g i) as ->.
    { unfold mono. unfold points. rewrite S. apply map_ext_in. intros j Hj. apply in_seq in Hj.
      rewrite raw_linear by (try (apply Hh; lia); unfold points; rewrite S; lia).
      rewrite T. f_equal. rewrite !first_from_center. rewrite C, S, T, X. reflexivity. }
    reflexivity. }
  assert (forall h i, regular h -> ndim RN h = ndim RN g -> (i < ndim RN g)%nat -> shape RN h i = shape RN g i -> step_of h i = step_of g i ->
    center_of h i = center_of g i -> center_at_index RN h i = center_at_index RN g i ->
    origin_at_center RN h i = origin_at_center RN g i ->
    coordinates h i = coordinates g i) as Hsame.
  { intros h i Hh N Hi S T C X O. rewrite (Hmono h _ i Hh N Hi S T C X O).
    rewrite (Hmono g (origin_at_center RN g i) i); auto. }
  repeat split.
  - destruct (dict_rebuild g (flag_arg RN g (flat RN g)) (flat RN g) (flag_arg RN g (origin_at_center RN g)) (origin_at_center RN g) Hg)
      as (h & E & R & N & M & V); try (apply flag_is_arg; assumption).
    exists h. split; [exact E|]. split; [assumption|]. split; [assumption|]. split; [assumption|].
    intros i Hi. rewrite N in Hi. apply V in Hi. unfold same_axis. tauto.
  - destruct (dict_rebuild g (BScalar true) (fun _ => true) (flag_arg RN g (origin_at_center RN g)) (origin_at_center RN g) Hg)
      as (h & E & R & N & M & V); try (apply flag_is_arg; assumption); try apply flag_is_scalar.
    exists h. split; [exact E|]. split; [assumption|]. split; [assumption|].
    intros i Hi. destruct (V i Hi) as (V1&V2&V3&V4&V5&V6). split; [apply Hsame; assumption|assumption].
  - destruct (dict_rebuild g (BScalar false) (fun _ => false) (flag_arg RN g (origin_at_center RN g)) (origin_at_center RN g) Hg)
      as (h & E & R & N & M & V); try (apply flag_is_arg; assumption); try apply flag_is_scalar.
    exists h. split; [exact E|]. split; [assumption|]. split; [assumption|].
    intros i Hi. destruct (V i Hi) as (V1&V2&V3&V4&V5&V6). split; [apply Hsame; assumption|assumption].
  - destruct (dict_rebuild g (flag_arg RN g (flat RN g)) (flat RN g) (BScalar true) (fun _ => true) Hg)
      as (h & E & R & N & M & V); try (apply flag_is_arg; assumption); try apply flag_is_scalar.
    exists h. split; [exact E|]. split; [assumption|]. split; [assumption|].
    intros i Hi. destruct (V i Hi) as (V1&V2&V3&V4&V5&V6). split; [apply (Hmono h true); assumption|assumption].
  - destruct (dict_rebuild g (flag_arg RN g (flat RN g)) (flat RN g) (BScalar false) (fun _ => false) Hg)
      as (h & E & R & N & M & V); try (apply flag_is_arg; assumption); try apply flag_is_scalar.
    exists h. split; [exact E|]. split; [assumption|]. split; [assumption|].
    intros i Hi. destruct (V i Hi) as (V1&V2&V3&V4&V5&V6). split; [assumption|].
    eexists. split; [apply (Hmono h false); assumption|]. split; [apply ifftshift_perm|].
    intros j Hj. assert (length (mono g i) = points g i) as L by (unfold mono; rewrite map_length, seq_length; reflexivity).
    rewrite <- L. apply ifftshift_nth. lia.
Qed.
