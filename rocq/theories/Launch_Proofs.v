(** Proofs about beams that are made from the arguments of the user. *)
From Coq Require Import Reals List Arith ZArith Bool Lia Lra ZifyBool ZifyNat.
Require Import Verif.Base Verif.Num Verif.Grid_Model Verif.Grid_Spec Verif.Grid_Proofs Verif.Grid_Rebuild Verif.Entry_Model Verif.Entry_Proofs.
Require Import Verif.CSum Verif.Field Verif.Fourier_Model Verif.Fourier_Spec Verif.Fourier_Proofs Verif.Vec_Model Verif.Vec_Grid Verif.Modes_Model Verif.Modes_Proofs Verif.Array_Model Verif.Array_Spec Verif.Array_Assign.
Require Import Verif.Beam_Model Verif.Beam_Spec Verif.Beam_Proofs Verif.Beam_Media Verif.Beam_Slices Verif.Beam_Vector Verif.Launch_Model Verif.Launch_Spec Verif.Cplx.
Import ListNotations.
Local Open Scope R_scope.
Ltac Zify.zify_post_hook ::= Z.div_mod_to_equations.

(** Lists. *)
Lemma put_length {A} a (x : A) l : (a < length l)%nat -> length (put a x l) = length l.
Proof. intros H. unfold put. rewrite app_length, firstn_length. cbn [length]. rewrite skipn_length. lia. Qed.
Lemma put_nth {A} a (x : A) l i d : (a < length l)%nat -> nth i (put a x l) d = if (i =? a)%nat then x else nth i l d.
Proof.
  revert a i. induction l as [|y l IH]; intros [|a] i H; cbn [length] in H; try lia; [destruct i; reflexivity|].
  change (put (Datatypes.S a) x (y :: l)) with (y :: put a x l). destruct i as [|i]; [reflexivity|]. exact (IH a i ltac:(lia)).
Qed.
Lemma pad3_nth {A} nd (x : A) l i d : (nd <= 3)%nat -> nth i (pad3 nd x l) d = if (i <? 3 - nd)%nat then x else nth (i - (3 - nd)) l d.
Proof.
  intros H. unfold pad3. destruct (Nat.ltb_spec i (3 - nd)).
  - rewrite app_nth1 by (rewrite repeat_length; lia). rewrite (nth_indep _ d x) by (rewrite repeat_length; lia). apply nth_repeat.
  - rewrite app_nth2 by (rewrite repeat_length; lia). rewrite repeat_length. reflexivity.
Qed.
Lemma pad3_length {A} nd (x : A) l : (nd <= 3)%nat -> length l = nd -> length (pad3 nd x l) = 3%nat.
Proof. intros H <-. unfold pad3. rewrite app_length, repeat_length. lia. Qed.
Lemma axes_map_nth {A} (f : nat -> A) n i d : (i < n)%nat -> nth i (map f (axes n)) d = f i.
Proof. intros H. apply nth_map_seq_d, H. Qed.
Lemma axes_map_length {A} (f : nat -> A) n : length (map f (axes n)) = n.
Proof. rewrite map_length. apply seq_length. Qed.

Section Grids.
  Variable g : grid RN.
  Hypothesis P : plain g.
  Let nd := ndim RN g.
  Let off := offset g.
  Lemma plain_facts : Grid_Spec.regular g /\ (1 <= nd <= 3)%nat /\ off = (3 - nd)%nat.
  Proof. destruct P as (H1 & H2 & _). auto. Qed.
  Definition shape3 (c : nat) : Z := if (c <? off)%nat then 1%Z else shape RN g (c - off)%nat.
  Definition step3 (c : nat) : R := if (c <? off)%nat then 0 else step_of g (c - off)%nat.
  Definition center3 (c : nat) : R := if (c <? off)%nat then 0 else center_of g (c - off)%nat.
  Lemma shape3_positive c : (c < 3)%nat -> (1 <= shape3 c)%Z.
  Proof. intros H. unfold shape3. destruct plain_facts as ((_ & _ & R) & N & O). destruct (Nat.ltb_spec c off); [lia|]. apply R. fold nd. lia. Qed.
  Lemma expanded : exists G, expand g = Ok G /\ Grid_Spec.regular G /\ ndim RN G = 3%nat /\ multidimensional RN G = true /\
    (forall c, (c < 3)%nat -> shape RN G c = shape3 c /\ step_of G c = step3 c /\ center_of G c = center3 c /\ Grid_Model.flat RN G c = false /\ origin_at_center RN G c = true /\ center_at_index RN G c = true).
  Proof.
    destruct plain_facts as ((HS & HM & R) & N & O). unfold expand, plain_args, shapes, steps, centers. rewrite HS. fold nd.
    edestruct (rebuild 3 true (AVector RN DInt (pad3 nd 1 (map (fun i => IZR (shape RN g i)) (axes nd)))) DInt shape3
      (AVector RN (tag RN (step RN g)) (pad3 nd 0 (map (at_ RN (step RN g)) (axes nd)))) (tag RN (step RN g)) step3
      (Some (AVector RN (tag RN (center RN g)) (pad3 nd 0 (map (at_ RN (center RN g)) (axes nd))))) (tag RN (center RN g)) center3
      (BScalar false) (fun _ => false) (BScalar true) (fun _ => true) (BScalar true) (fun _ => true) false) as (G & E & RG & NG & MG & FG & _).
    - eapply arg_is_ext; [apply arg_is_list; apply pad3_length; [lia|apply axes_map_length]|]. intros i Hi. cbn beta. etransitivity; [apply pad3_nth; lia|].
      unfold shape3. rewrite O. destruct (Nat.ltb_spec i (3 - nd)); [reflexivity|]. etransitivity; [apply axes_map_nth; lia|]. reflexivity.
    - exact shape3_positive.
    - eapply arg_is_ext; [apply arg_is_list; apply pad3_length; [lia|apply axes_map_length]|]. intros i Hi. cbn beta. etransitivity; [apply pad3_nth; lia|].
      unfold step3. rewrite O. destruct (Nat.ltb_spec i (3 - nd)); [reflexivity|]. etransitivity; [apply axes_map_nth; lia|]. reflexivity.
    - eapply arg_is_ext; [apply arg_is_list; apply pad3_length; [lia|apply axes_map_length]|]. intros i Hi. cbn beta. etransitivity; [apply pad3_nth; lia|].
      unfold center3. rewrite O. destruct (Nat.ltb_spec i (3 - nd)); [reflexivity|]. etransitivity; [apply axes_map_nth; lia|]. reflexivity.
    - apply flag_is_scalar.
    - apply flag_is_scalar.
    - apply flag_is_scalar.
    - discriminate.
    - exists G. split; [exact E|]. split; [exact RG|]. split; [exact NG|]. split; [exact MG|]. exact FG.
  Qed.

  Lemma sliced G a : (a < 3)%nat -> Grid_Spec.regular G -> ndim RN G = 3%nat ->
    (forall c, (c < 3)%nat -> shape RN G c = shape3 c /\ step_of G c = step3 c /\ center_of G c = center3 c) ->
    exists h, slice G a = Ok h /\ Grid_Spec.regular h /\ ndim RN h = 3%nat /\ multidimensional RN h = true /\
    (forall c, (c < 3)%nat -> shape RN h c = (if (c =? a)%nat then 1%Z else shape3 c) /\ step_of h c = step3 c /\ center_of h c = (if (c =? a)%nat then 0 else center3 c) /\
      Grid_Model.flat RN h c = false /\ origin_at_center RN h c = true /\ center_at_index RN h c = true).
  Proof.
    intros Ha (HS & HM & R) N FG. unfold slice, plain_args, shapes, steps, centers. rewrite HS, N.
    edestruct (rebuild 3 true (AVector RN DInt (put a 1 (pad3 3 1 (map (fun i => IZR (shape RN G i)) (axes 3))))) DInt (fun c => if (c =? a)%nat then 1%Z else shape3 c)
      (AVector RN (tag RN (step RN G)) (pad3 3 0 (map (at_ RN (step RN G)) (axes 3)))) (tag RN (step RN G)) step3
      (Some (AVector RN DFlt (put a 0 (pad3 3 0 (map (at_ RN (center RN G)) (axes 3)))))) DFlt (fun c => if (c =? a)%nat then 0 else center3 c)
      (BScalar false) (fun _ => false) (BScalar true) (fun _ => true) (BScalar true) (fun _ => true) false) as (h & E & RG & NG & MG & Fh & _).
    - eapply arg_is_ext; [apply arg_is_list; etransitivity; [apply put_length|]; rewrite pad3_length by (lia || apply axes_map_length); (exact Ha || reflexivity)|].
      intros i Hi. cbn beta. etransitivity; [apply put_nth; rewrite pad3_length by (lia || apply axes_map_length); exact Ha|]. destruct (i =? a)%nat; [reflexivity|].
      etransitivity; [apply pad3_nth; lia|]. destruct (Nat.ltb_spec i (3 - 3)); [lia|]. rewrite Nat.sub_0_r. etransitivity; [apply axes_map_nth, Hi|]. f_equal. apply FG, Hi.
    - intros i Hi. destruct (i =? a)%nat; [lia|apply shape3_positive, Hi].
    - eapply arg_is_ext; [apply arg_is_list; apply pad3_length; [lia|apply axes_map_length]|]. intros i Hi. cbn beta. etransitivity; [apply pad3_nth; lia|].
      destruct (Nat.ltb_spec i (3 - 3)); [lia|]. rewrite Nat.sub_0_r. etransitivity; [apply axes_map_nth, Hi|]. apply FG, Hi.
    - eapply arg_is_ext; [apply arg_is_list; etransitivity; [apply put_length|]; rewrite pad3_length by (lia || apply axes_map_length); (exact Ha || reflexivity)|].
      intros i Hi. cbn beta. etransitivity; [apply put_nth; rewrite pad3_length by (lia || apply axes_map_length); exact Ha|]. destruct (i =? a)%nat; [reflexivity|].
      etransitivity; [apply pad3_nth; lia|]. destruct (Nat.ltb_spec i (3 - 3)); [lia|]. rewrite Nat.sub_0_r. etransitivity; [apply axes_map_nth, Hi|]. apply FG, Hi.
    - apply flag_is_scalar.
    - apply flag_is_scalar.
    - apply flag_is_scalar.
    - discriminate.
    - exists h. split; [exact E|]. split; [exact RG|]. split; [exact NG|]. split; [exact MG|]. exact Fh.
  Qed.
End Grids.

Lemma same_spatial t : Array_Spec.spatial t t.
Proof. induction t as [|n t IH]; constructor; [left; reflexivity|exact IH]. Qed.
Lemma lt_three c : (c < 3)%nat -> c = 0%nat \/ c = 1%nat \/ c = 2%nat.
Proof. lia. Qed.
Section Sections.
  Variables (g : grid RN) (a : nat) (crd : nat -> list R) (h : grid RN).
  Hypotheses (P : plain g) (Crd : forall i, (i < ndim RN g)%nat -> coordinates g i = Ok (crd i)) (Ha : (a < 3)%nat) (Ho : (offset g <= a)%nat).
  Hypotheses (RH : Grid_Spec.regular h) (NH : ndim RN h = 3%nat) (MH : multidimensional RN h = true)
    (FH : forall c, (c < 3)%nat -> shape RN h c = (if (c =? a)%nat then 1%Z else shape3 g c) /\ step_of h c = step3 g c /\ center_of h c = (if (c =? a)%nat then 0 else center3 g c) /\
      Grid_Model.flat RN h c = false /\ origin_at_center RN h c = true /\ center_at_index RN h c = true).
  Notation s := (rshape (across g a)).
  Lemma grid_coords i : (i < ndim RN g)%nat -> crd i = axis_range RN g i.
  Proof. intros H. pose proof (Crd i H) as E. rewrite coordinates_range in E by (apply P || exact H). congruence. Qed.
  Lemma grid_coord i j : (i < ndim RN g)%nat -> (j < Grid_Spec.points g i)%nat -> nth j (crd i) 0 = first RN g i + INR j * step_of g i.
  Proof.
    intros H J. rewrite grid_coords by exact H. etransitivity; [apply axis_range_nth; [apply P, H|exact J]|]. destruct P as (_ & _ & Q). destruct (Q i H) as (-> & _). reflexivity.
  Qed.
  Lemma grid_coords_length i : (i < ndim RN g)%nat -> length (crd i) = Grid_Spec.points g i.
  Proof. intros H. rewrite grid_coords by exact H. apply axis_range_length. Qed.
  Lemma first_plain i : (i < ndim RN g)%nat -> first RN g i = center_of g i - IZR (shape RN g i / 2) * step_of g i.
  Proof. intros H. destruct P as (_ & _ & Q). destruct (Q i H) as (_ & C & _). unfold first, center_of, step_of. rewrite C. rn. cbn. ring. Qed.
  Lemma section_points c : (c < 3)%nat -> Grid_Spec.points h c = nth c s 1%nat /\ (forall d, nth c s d = if ((c =? a) || (c <? offset g))%nat then 1%nat else Grid_Spec.points g (c - offset g)).
  Proof.
    intros Hc. assert (forall d, nth c s d = if ((c =? a) || (c <? offset g))%nat then 1%nat else Grid_Spec.points g (c - offset g)) as E by (intros d; destruct (lt_three c Hc) as [->|[->| ->]]; reflexivity).
    split; [|exact E]. rewrite E. unfold Grid_Spec.points. destruct (FH c Hc) as (-> & _). unfold shape3. destruct (c =? a)%nat; [reflexivity|]. destruct (c <? offset g)%nat; reflexivity.
  Qed.
  Lemma section_raster k n comps : bgrid (section_setup h a k n comps) = across g a.
  Proof.
    unfold section_setup, across. cbn [bgrid seq map].
    destruct (FH 0%nat ltac:(lia)) as (A0 & B0 & _). destruct (FH 1%nat ltac:(lia)) as (A1 & B1 & _). destruct (FH 2%nat ltac:(lia)) as (A2 & B2 & _).
    rewrite A0, A1, A2. unfold step_of in B0, B1, B2. rewrite B0, B1, B2. unfold shape3, step3. f_equal.
    f_equal; [|f_equal; [|f_equal]]; match goal with |- context [(?c =? a)%nat] => destruct (c =? a)%nat; [reflexivity|]; destruct (c <? offset g)%nat; reflexivity end.
  Qed.
  Lemma section_first c : (c < 3)%nat -> first RN h c = if ((c =? a) || (c <? offset g))%nat then 0 else first RN g (c - offset g)%nat.
  Proof.
    intros Hc. destruct (FH c Hc) as (A & B & D & _ & _ & X). transitivity (center_of h c - step_of h c * IZR (shape RN h c / 2)); [unfold first, center_of, step_of; rewrite X; cbn [negb andb]; rn; reflexivity|]. rewrite A, B, D. unfold shape3, step3, center3.
    destruct (c =? a)%nat eqn:E; cbn [orb]; [change (1 / 2)%Z with 0%Z; rn; ring|]. destruct (Nat.ltb_spec c (offset g)) as [L|L]; [rn; ring|].
    rewrite first_plain; [rn; ring|]. unfold offset in *. pose proof (proj1 (proj2 P)). lia.
  Qed.
  Lemma section_position c p : (c < 3)%nat -> inside s p -> nth (nth c p 0%nat) (axis_range RN h c) 0 = place g a crd p c /\ first RN h c + step3 g c * INR (nth c p 0%nat) = place g a crd p c.
  Proof.
    intros Hc Hp. assert (nth c p 0 < Grid_Spec.points h c)%nat as L by (rewrite (proj1 (section_points c Hc)); apply nth_in_inside; [exact Hp|exact Hc]).
    assert (first RN h c + step3 g c * INR (nth c p 0%nat) = place g a crd p c) as E.
    { rewrite section_first by exact Hc. unfold place, step3. rewrite (proj1 (section_points c Hc)), (proj2 (section_points c Hc)) in L.
      destruct ((c =? a) || (c <? offset g))%bool eqn:E; [replace (nth c p 0%nat) with 0%nat by lia; cbn [INR]; ring|].
      apply orb_false_iff in E as [E1 E2]. rewrite E2. rewrite grid_coord; [ring| |exact L]. unfold offset in *. pose proof (proj1 (proj2 P)). lia. }
    split; [|exact E]. destruct (FH c Hc) as (A & B & _ & _ & O & _). etransitivity; [apply axis_range_nth; [apply RH; rewrite NH; exact Hc|exact L]|]. rewrite O, B. cbn [order]. rewrite Rmult_comm. exact E.
  Qed.
  Lemma section_is_section : section_grid (across g a) a.
  Proof.
    split; [reflexivity|]. split; [reflexivity|]. split.
    - assert (forall c, (c < 3)%nat -> (0 < nth c s 1)%nat) as H.
      { intros c Hc. rewrite <- (proj1 (section_points c Hc)). destruct RH as (_ & _ & R). specialize (R c). rewrite NH in R. specialize (R Hc). unfold Grid_Spec.points. lia. }
      pose proof (H 0%nat ltac:(lia)). pose proof (H 1%nat ltac:(lia)). pose proof (H 2%nat ltac:(lia)). unfold across in *. cbn [rshape map nth] in *. repeat (constructor; [assumption|]). constructor.
    - split; [rewrite (proj2 (section_points a Ha)), Nat.eqb_refl; reflexivity|]. split; [exact Ha|]. intros c Hc. rewrite (proj2 (section_points c Hc)). intros L.
      destruct ((c =? a) || (c <? offset g))%bool eqn:E; [lia|]. apply orb_false_iff in E as [E1 E2].
      assert (nth c (rstep (across g a)) 0 = step3 g c) as -> by (destruct (lt_three c Hc) as [->|[->| ->]]; reflexivity). unfold step3. rewrite E2. apply P; [|exact L]. unfold offset in *. pose proof (proj1 (proj2 P)). lia.
  Qed.
  Lemma section_coordinate p c : (c < 3)%nat -> inside s p -> coordinate (across g a) (first RN h) p c = place g a crd p c.
  Proof.
    intros Hc Hp. unfold coordinate. rewrite <- (proj2 (section_position c p Hc Hp)). f_equal. f_equal. destruct (lt_three c Hc) as [->|[->| ->]]; reflexivity.
  Qed.
  Lemma section_phases q p : inside s p -> rsum 3 (fun c => kvec (across g a) c q * coordinate (across g a) (first RN h) p c) = phase g a crd q p.
  Proof. intros Hp. unfold phase. apply rsum_ext. intros c Hc. rewrite section_coordinate by assumption. reflexivity. Qed.
  Lemma section_spectrum f q : to_spectrum (across g a) (first RN h) f q = amplitudes g a crd f q.
  Proof. unfold to_spectrum, amplitudes. apply sum_over_ext. intros p Hp. rewrite section_phases by exact Hp. reflexivity. Qed.
  Lemma section_space k z F p : inside s p -> to_space (across g a) (first RN h) (diffract (across g a) a k z F) p = diffracted g a crd k z F p.
  Proof. intros Hp. unfold to_space, diffracted, diffract. f_equal. apply sum_over_ext. intros q Hq. rewrite section_phases by exact Hp. rewrite cis_plus. ring. Qed.

  (** The arguments for the field. *)
  Lemma spatial_fits t u : Array_Spec.spatial t u -> fits_in u t = true.
  Proof.
    intros H. induction H as [|n d t u H _ IH]; [reflexivity|]. cbn [fits_in]. rewrite IH, andb_true_r. destruct H as [->| ->]; rewrite ?Nat.eqb_refl; cbn; [reflexivity|apply orb_true_r].
  Qed.
  Lemma read_values n y (f : vfield) : n = nth 0 (lpad 4 (ashape y)) 1%nat -> (n = 1 \/ n = 3)%nat -> Array_Spec.broadcasts y (n :: s) -> (forall c p, (c < n)%nat -> inside s p -> bget y (c :: p) = f c p) ->
    exists f', values s y = Ok (n, f') /\ forall c p, (c < n)%nat -> inside s p -> f' c p = f c p.
  Proof.
    intros En N [L B] E. unfold values. change (length (n :: s)) with 4%nat in *. destruct (Nat.ltb_spec 4 (adim y)); [lia|]. unfold components. rewrite <- En. replace ((n =? 1) || (n =? 3))%nat with true by (destruct N as [->| ->]; reflexivity).
    assert (fits_in (tl (lpad 4 (ashape y))) s = true) as ->. { apply spatial_fits in B. destruct (lpad 4 (ashape y)); [discriminate|]. cbn [fits_in] in B. apply andb_prop in B. apply B. }
    cbn [andb]. eexists. split; [reflexivity|]. exact E.
  Qed.
  Lemma section_items : items h = Ok (map (fun i => Along i (axis_range RN h i)) [0; 1; 2]%nat).
  Proof. rewrite items_axes by assumption. rewrite NH. f_equal. cbn [seq map]. unfold coords_of. rewrite MH. rewrite (proj1 (proj2 (proj2 (proj2 (FH 0%nat ltac:(lia)))))), (proj1 (proj2 (proj2 (proj2 (FH 1%nat ltac:(lia)))))), (proj1 (proj2 (proj2 (proj2 (FH 2%nat ltac:(lia)))))). reflexivity. Qed.
  Lemma read_coords m : (1 <= m <= 3)%nat -> exists xs, last_axes h m = Ok xs /\ forall p, inside s p -> map (fun c => at_index c p) xs = map (place g a crd p) (skipn (3 - m) [0; 1; 2]%nat).
  Proof.
    intros M. unfold last_axes. rewrite section_items. cbn [bind]. replace ((1 <=? m) && (m <=? 3))%nat with true by lia. eexists. split; [reflexivity|]. intros p Hp. rewrite map_length. change (length [0; 1; 2]%nat) with 3%nat.
    rewrite skipn_map, map_map. apply map_ext_in. intros c Hc. assert (c < 3)%nat as Lc.
    { assert (In c [0; 1; 2]%nat) as I by (rewrite <- (firstn_skipn (3 - m) [0; 1; 2]%nat); apply in_or_app; right; exact Hc). cbn in I. lia. }
    rewrite <- (proj1 (section_position c p Lc Hp)). apply (along_at s); [exact Hp|exact Lc|]. etransitivity; [apply axis_range_length|]. apply section_points, Lc.
  Qed.
  Lemma read_given x n (f : vfield) : means_field g a crd x n f -> exists y f', field_array h s x = Ok y /\ values s y = Ok (n, f') /\ forall c p, (c < n)%nat -> inside s p -> f' c p = f c p.
  Proof.
    assert (length s = 3%nat) as Ls by reflexivity.
    assert (forall p, inside s p -> length p = 3%nat) as Lp by (intros p Hp; apply (Entry_Proofs.inside_length s p Hp)).
    destruct x as [y|m e|m e]; cbn [means_field field_array].
    - intros (En & N & B & E). destruct (read_values n y f En N B E) as (f' & V & H). exists y, f'. auto.
    - intros (M & -> & E). destruct (read_coords m M) as (xs & -> & X). cbn [bind]. set (y := Arr s _). destruct (read_values 1 y f) as (f' & V & H).
      + reflexivity.
      + left; reflexivity.
      + split; [cbn; lia|]. constructor; [left; reflexivity|]. apply same_spatial.
      + intros c p Hc Hp. unfold bget, y, adim. cbn [ashape aget length]. rewrite (Lp p Hp), Ls. cbn [Nat.sub skipn]. rewrite Array_Assign.inside_clip by exact Hp. rewrite X by exact Hp. symmetry. apply E, Hp.
      + exists y, f'. auto.
    - intros (M & -> & E). destruct (read_coords m M) as (xs & -> & X). cbn [bind]. set (y := Arr (3%nat :: s) _). destruct (read_values 3 y f) as (f' & V & H).
      + reflexivity.
      + right; reflexivity.
      + split; [cbn; lia|]. constructor; [left; reflexivity|]. apply same_spatial.
      + intros c p Hc Hp. unfold bget, y, adim. cbn [ashape aget length]. rewrite (Lp p Hp), Ls. cbn [Nat.sub skipn]. rewrite Array_Assign.inside_clip by (constructor; [exact Hc|exact Hp]). cbn [tl nth]. rewrite X by exact Hp. symmetry. apply E; assumption.
      + exists y, f'. auto.
  Qed.
  (** The first state. *)
  Lemma read_start l n (k0 n0 : C) (F : vfield) : asked_spectrum g a crd l n F -> let b := section_setup h a k0 n0 n in
    (n = 1 \/ n = 3)%nat /\ exists F', start h a k0 n0 (l_field l) (l_spectrum l) = Ok (b, set_ft b F') /\ forall c q, (c < n)%nat -> inside s q -> F' c q = F c q.
  Proof.
    intros A b. unfold start. change (rshape (bgrid (section_setup h a k0 n0 1))) with (rshape (bgrid b)). pose proof (section_raster k0 n0 n) as R. fold b in R. rewrite R.
    unfold asked_spectrum in A. destruct (l_spectrum l) as [y|].
    - destruct A as (En & N & B & E). split; [exact N|]. destruct (read_values n y F En N B E) as (f' & -> & H). cbn [bind fst snd]. exists f'. split; [reflexivity|exact H].
    - destruct (l_field l) as [x|]; [|contradiction]. destruct A as (f & A & E). split.
      { destruct x; cbn in A; [tauto|left; tauto|right; tauto]. }
      destruct (read_given x n f A) as (y & f' & -> & V & H). cbn [bind]. rewrite V. cbn [bind fst snd]. fold b. unfold set_field.
      assert (section_grid (bgrid b) (baxis b)) as SG by (rewrite R; apply section_is_section).
      assert (forall c q, (c < n)%nat -> inside s q -> to_spectrum (bgrid b) (bfirst b) (f' c) q = F c q) as T.
      { intros c q Hc Hq. rewrite R. change (bfirst b) with (first RN h). rewrite section_spectrum, E by assumption. unfold amplitudes. apply sum_over_ext. intros p Hp. rewrite H by assumption. reflexivity. }
      destruct (extended b) eqn:X.
      + eexists. split; [reflexivity|]. intros c q Hc Hq. cbn beta. rewrite (to_spectrum_ft b) by (exact SG || (unfold Beam_Model.bshape; rewrite R; exact Hq)). apply T; assumption.
      + eexists. split; [reflexivity|]. intros c q Hc Hq. rewrite <- (T c q Hc Hq). symmetry. apply point_spectrum; [exact SG|exact X|unfold Beam_Model.bshape; rewrite R; exact Hq].
  Qed.
End Sections.
