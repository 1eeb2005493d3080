(** The wave vectors of the vector calculus model are those of the Grid model (utils/ft/grid.py 427-439). *)
From Coq Require Import Reals Lra Lia List ZArith.
From Verif Require Import Base Num Grid_Model Grid_Spec Grid_Proofs Grid_Rebuild Grid_Ops.
From Verif Require Vec_Model Vec_Spec.
Import ListNotations.
Local Open Scope R_scope.

(** Shape and step of a grid as a raster. *)
Definition raster_of (g : grid RN) : Vec_Model.raster :=
  {| Vec_Model.rshape := map (points g) (seq 0 (ndim RN g)); Vec_Model.rstep := map (step_of g) (seq 0 (ndim RN g)) |}.

Lemma nth_map_seq_d {A} (f : nat -> A) n i d : (i < n)%nat -> nth i (map f (seq 0 n)) d = f i.
Proof.
  intros H. rewrite (nth_indep _ d (f 0%nat)) by (rewrite map_length, seq_length; assumption).
  rewrite map_nth, seq_nth by assumption. reflexivity.
Qed.

Lemma raster_of_proper g : regular g -> (forall i, (i < ndim RN g)%nat -> step_of g i <> 0) -> Vec_Spec.proper (raster_of g).
Proof.
  intros (_ & _ & Hs) Hst. unfold raster_of, Vec_Spec.proper. cbn. rewrite !map_length. split; [reflexivity|].
  split; apply Forall_forall; intros x Hx; apply in_map_iff in Hx; destruct Hx as (i & <- & Hi); apply in_seq in Hi.
  - unfold points. specialize (Hs i). lia.
  - apply Hst. lia.
Qed.

Lemma kvec_of_grid g : regular g -> (forall i, (i < ndim RN g)%nat -> step_of g i <> 0) ->
  exists k, k_grid RN PI g = Ok k /\ forall i, (i < ndim RN g)%nat -> exists l, coordinates k i = Ok l /\ length l = points g i /\
    forall p, (nth i p 0 < points g i)%nat -> nth (nth i p 0%nat) l 0 = Vec_Model.kvec (raster_of g) i p.
Proof.
  intros Hg Hst. destruct (f_ok g Hg Hst) as (f & E & R & N & M & V).
  destruct (k_ok g Hg Hst) as (f' & k & E' & Ek & Rk & Lk & Ck). rewrite E in E'. injection E' as <-.
  exists k. split; [assumption|]. intros i Hi. destruct (V i Hi) as (_&_&_&_&_&_&l&El&Ll&Vl).
  destruct (Ck i) as (l' & E1 & E2); [lia|]. rewrite El in E1. injection E1 as <-.
  exists (map (fun x => 2 * PI * x) l). split; [assumption|]. split; [rewrite map_length; assumption|]. intros p Hp.
  rewrite nth_indep with (d' := 2 * PI * 0) by (rewrite map_length; lia).
  rewrite (map_nth (fun x => 2 * PI * x)), Vl by assumption.
  unfold Vec_Model.kvec, raster_of. cbn [Vec_Model.rshape Vec_Model.rstep]. rewrite !nth_map_seq_d by assumption.
  unfold Vec_Model.k_axis. change (Vec_Model.k_index (points g i) (nth i p 0%nat)) with (signed (points g i) (nth i p 0%nat)).
  assert (IZR (shape RN g i) = INR (points g i)) as Es.
  { destruct Hg as (_ & _ & Hs). specialize (Hs i Hi). unfold points. rewrite INR_IZR_INZ, Z2Nat.id by lia. reflexivity. }
  assert (0 < INR (points g i)) by (apply lt_0_INR; lia).
  unfold extent. rn. rewrite Es. unfold step_of. field. split; [apply Hst; assumption|lra].
Qed.
