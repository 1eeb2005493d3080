(** Colour maps: C159. *)
From Coq Require Import Reals Lra Lia List Arith ZArith Bool.
Require Import Verif.Base Verif.Num Verif.Float_Model Verif.Colormap_Model Verif.Colormap_Spec Verif.Colormap_Proofs.
Import ListNotations.
Local Open Scope R_scope.

(** C159.  The colours between the points are those of linear interpolation, for points that are given and for the uniform points by default; the alpha
    channel is 1 if it is not given. *)
Theorem colormap_interpolates : forall n m (f : nat -> nat -> RN) points K j r g b a, (3 <= m)%nat -> match points with None => True | Some l => length l = n end ->
  (2 <= K)%nat -> (j < K)%nat -> forall cm, interpolated RN n m f points = Ok cm -> colour RN K cm j = Ok (r, g, b, a) ->
  let p i := match points with None => INR i / (INR n - 1) | Some l => nth i l 0 end in
  channel_at n p (fun i => f i 0%nat) K j r /\ channel_at n p (fun i => f i 1%nat) K j g /\ channel_at n p (fun i => f i 2%nat) K j b /\
  if (3 <? m)%nat then channel_at n p (fun i => f i 3%nat) K j a else a = 1.
Proof. exact colour_channels. Qed.
Print Assumptions colormap_interpolates.

(** C159.  In double precision, the default points start with exactly 0, end with exactly 1, and never decrease, so that every list of at least two colours makes a
    colour map that can be used. *)
Theorem colormap_default_partial : forall n m (f : nat -> nat -> BN) K j, (2 <= Z.of_nat n <= 2 ^ 53)%Z -> (3 <= m)%nat ->
  exists cm c, interpolated BN n m f None = Ok cm /\ colour BN K cm j = Ok c.
Proof. exact colours_usable. Qed.
Print Assumptions colormap_default_partial.

(** C159.  With a single colour, the constructor succeeds but the map cannot be used: its only point is 0 / 0. *)
Theorem colormap_single_refuted : forall m (f : nat -> nat -> BN) K j, (3 <= m)%nat -> exists cm, interpolated BN 1 m f None = Ok cm /\ colour BN K cm j = Err ValueError.
Proof. exact one_colour. Qed.
Print Assumptions colormap_single_refuted.

(** C159.  Colours of fewer than three channels are refused. *)
Theorem colormap_channels : forall (N : num) n m (f : nat -> nat -> N), (m < 3)%nat -> interpolated N n m f None = Err IndexError.
Proof. exact @few_channels. Qed.
Print Assumptions colormap_channels.

(** From black to red. *)
Example colormap_red : forall K j, exists cm c, interpolated RN 2 3 (fun i k => if (i =? 1)%nat && (k =? 0)%nat then 1 else 0) None = Ok cm /\ colour RN K cm j = Ok c.
Proof.
  intros K j. pose proof (interpolated_ok (N := RN) 2 3 (fun i k => if (i =? 1)%nat && (k =? 0)%nat then 1 else 0) None ltac:(lia) I) as Ei. cbv zeta in Ei.
  eexists. eexists. split; [exact Ei|]. unfold colour. cbn [red green blue alpha Nat.ltb Nat.leb].
  assert (forall c, length c = 2%nat -> check RN (rowsof (default_points RN 2) c) = Ok tt) as E.
  { intros c Hc. unfold check. rewrite rows_xs by (rewrite Hc; reflexivity). unfold default_points. cbn [map seq last].
    assert (ndiv RN (nofZ RN (Z.of_nat 0)) (nofZ RN (Z.of_nat 2 - 1)) = 0) as -> by (cbn; lra).
    assert (ndiv RN (nofZ RN (Z.of_nat 1)) (nofZ RN (Z.of_nat 2 - 1)) = 1) as -> by (cbn; lra).
    rewrite (proj2 (RN_neqb_true 0 (nofZ RN 0))) by reflexivity. rewrite (proj2 (RN_neqb_true 1 (nofZ RN 1))) by reflexivity. cbn [negb orb decreases].
    rewrite (proj2 (RN_nltb_false _ _)); [reflexivity|]. rn. lra. }
  rewrite !E by reflexivity. reflexivity.
Qed.
