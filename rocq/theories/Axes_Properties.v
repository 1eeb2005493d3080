(** Annotated images: C161. *)
From Coq Require Import Reals Lra String List.
Require Import Verif.Base Verif.Axes_Model Verif.Axes_Spec Verif.Axes_Proofs.
Import ListNotations.
Local Open Scope R_scope.

(** C161.  With a positive scale, the image gets a title, if one is given, and a bar of the length that its label says, which is a round number within a factor
    of 1.6 of the scale.  Both are black on a white background, and white otherwise.  What was drawn before stays. *)
Theorem scale_bar_partial : forall a t x u b, 0 < x -> exists a' l bar len,
  format_image_axes a t (ScaleNumber x) u b = Ok a' /\ xticks a' = [] /\ yticks a' = [] /\ framed a' = false /\
  artists a' = (artists a ++ l ++ [bar])%list /\ titles t (if b then black else white) l /\ true_bar bar len u (if b then black else white) /\
  round_number len /\ (/ 10 ^ 10 <= x -> x <= 8 / 5 * len /\ len <= 8 / 5 * x).
Proof. exact bar_added. Qed.
Print Assumptions scale_bar_partial.

(** C161.  No bar is drawn otherwise. *)
Theorem scale_bar_absent : forall a t x u b, x <= 0 -> exists a' l, format_image_axes a t (ScaleNumber x) u b = Ok a' /\
  xticks a' = [] /\ yticks a' = [] /\ framed a' = false /\ artists a' = (artists a ++ l)%list /\ titles t (if b then black else white) l.
Proof. exact no_bar. Qed.
Print Assumptions scale_bar_absent.

(** C161.  The documentation says that for the unit 'm' and a scale of 1e-3 the label is in 'mm', but it is in 'm'. *)
Theorem scale_bar_unit_refuted : forall a b, exists a' size height c, format_image_axes a None (ScaleNumber (/ 1000)) "m"%string b = Ok a' /\
  artists a' = (artists a ++ [AnchoredSizeBar size height size "m"%string c])%list /\ size < / 100.
Proof. exact unit_kept. Qed.
Print Assumptions scale_bar_unit_refuted.

(** C161.  A scale below 1e-10 gets a bar of 1e-10, which can be longer than the image. *)
Theorem scale_bar_tiny_refuted : forall a x u b, 0 < x < / 10 ^ 10 -> exists a' height, format_image_axes a None (ScaleNumber x) u b = Ok a' /\
  artists a' = (artists a ++ [AnchoredSizeBar (/ 10 ^ 10) height (/ 10 ^ 10) u (if b then black else white)])%list.
Proof. exact tiny_bar. Qed.
Print Assumptions scale_bar_tiny_refuted.

(** C161.  An array of several scales, such as grid.extent / 8, is documented as argument but refused. *)
Theorem scale_bar_array_refuted : forall a t x y l u b, format_image_axes a t (ScaleArray (x :: y :: l)) u b = Err ValueError.
Proof. exact array_refused. Qed.
Print Assumptions scale_bar_array_refuted.

(** C161.  Formatting again draws everything again. *)
Theorem scale_bar_again : forall a t s u b a1 a2, format_image_axes a t s u b = Ok a1 -> format_image_axes a1 t s u b = Ok a2 ->
  exists l, artists a1 = (artists a ++ l)%list /\ artists a2 = (artists a ++ l ++ l)%list.
Proof. exact twice_added. Qed.
Print Assumptions scale_bar_again.

Example scale_bar_case : exists a', format_image_axes {| xticks := [0; 1]; yticks := []; framed := true; artists := [OtherArtist 0] |} (Some "E"%string) (ScaleNumber (3 / 10)) "um"%string true = Ok a' /\
  List.length (artists a') = 3%nat.
Proof.
  destruct (bar_added {| xticks := [0; 1]; yticks := []; framed := true; artists := [OtherArtist 0] |} (Some "E"%string) (3 / 10) "um"%string true ltac:(lra)) as (a' & l & bar & len & E & _ & _ & _ & Ea & Ht & _).
  exists a'. split; [exact E|]. rewrite Ea, !app_length. cbn in Ht. rewrite Ht. reflexivity.
Qed.
