(** Absorbing boundaries in double precision. *)
From Coq Require Import ZArith Reals Lia Lra List Bool.
From Flocq Require Import Core.Core IEEE754.BinarySingleNaN.
From Verif Require Import Base Num Grid_Model Grid_Proofs Bound_Model Float_Model Float_Spec Float_Basics Float_Proofs Float_Examples Bound64_Spec Bound64_Proofs.
From Verif Require Bound_Spec.
Local Notation sided := Bound_Spec.sided.
Local Open Scope R_scope.

(** C133. The boundary of [LinearBound(grid, thickness, max_extinction_coefficient)] can always be calculated in double
    precision: no sample is nan or infinite. *)
Theorem float_bound_calculated : forall (g : grid BN) (t k : sides_arg BN) (b : bound BN),
  upright64 g -> linear_bound BN g t k = Ok b ->
  (forall a s x, (a < ndim BN g)%nat -> (s < 2)%nat -> sided t a s x \/ sided k a s x -> moderate x /\ 0 <= val x) ->
  exists kappa within, extinction BN b = Ok kappa /\ between BN b = Ok within /\
    forall p, inside64 g p -> finite (kappa p) /\ 0 <= val (kappa p).
Proof.
  intros g t k b U H M. destruct (float_bound g t k b U H M) as (kappa & w & E & W & A). exists kappa, w.
  refine (conj E (conj W _)). intros p Hp. destruct (A p Hp) as (F & P & _). split; assumption.
Qed.
Print Assumptions float_bound_calculated.

(** The two attributes agree in spite of the rounding: there is absorption exactly where the sample is not between the boundaries. *)
Theorem float_bound_consistent : forall (g : grid BN) (t k : sides_arg BN) (b : bound BN) kappa within p,
  upright64 g -> linear_bound BN g t k = Ok b -> extinction BN b = Ok kappa -> between BN b = Ok within -> inside64 g p ->
  (forall a s x, (a < ndim BN g)%nat -> (s < 2)%nat -> sided t a s x \/ sided k a s x -> moderate x /\ 0 <= val x) ->
  (within p = true -> val (kappa p) = 0) /\
  ((forall a s x, (a < ndim BN g)%nat -> (s < 2)%nat -> sided k a s x -> 0 < val x) -> within p = false -> 0 < val (kappa p)).
Proof.
  intros g t k b kappa w p U H E W Hp M. destruct (float_bound g t k b U H M) as (kappa' & w' & E' & W' & A).
  rewrite E in E'. injection E' as <-. rewrite W in W'. injection W' as <-. destruct (A p Hp) as (_ & _ & Z & P & _). split; auto.
Qed.
Print Assumptions float_bound_consistent.

(** A sample is between the boundaries when it is at least the thickness away from the edges, up to one rounding. *)
Theorem float_between_placed : forall (g : grid BN) (t k : sides_arg BN) (b : bound BN) within p,
  upright64 g -> linear_bound BN g t k = Ok b -> between BN b = Ok within -> inside64 g p ->
  (forall a s x, (a < ndim BN g)%nat -> (s < 2)%nat -> sided t a s x \/ sided k a s x -> moderate x /\ 0 <= val x) ->
  (within p = true -> forall a s x, (a < ndim BN g)%nat -> (s < 2)%nat -> sided t a s x ->
     val x - unit_roundoff * (Rabs (val (edge64 g a s)) + val x) <= Rabs (val (coordinate g a (p a)) - val (edge64 g a s))) /\
  (within p = false -> exists a s x, (a < ndim BN g)%nat /\ (s < 2)%nat /\ sided t a s x /\
     Rabs (val (coordinate g a (p a)) - val (edge64 g a s)) < val x + unit_roundoff * (Rabs (val (edge64 g a s)) + val x)).
Proof.
  intros g t k b w p U H W Hp M. destruct (float_bound g t k b U H M) as (kappa' & w' & E' & W' & A).
  rewrite W in W'. injection W' as <-. destruct (A p Hp) as (_ & _ & _ & _ & I & O & _). split; auto.
Qed.
Print Assumptions float_between_placed.

(** The maximum extinction coefficient is exceeded by no more than the rounding. *)
Theorem float_extinction_limited : forall (g : grid BN) (t k : sides_arg BN) (b : bound BN) kappa p most,
  upright64 g -> linear_bound BN g t k = Ok b -> extinction BN b = Ok kappa -> inside64 g p ->
  (forall a s x, (a < ndim BN g)%nat -> (s < 2)%nat -> sided t a s x \/ sided k a s x -> moderate x /\ 0 <= val x) ->
  0 <= most ->
  (forall a s x y, (a < ndim BN g)%nat -> (s < 2)%nat -> sided t a s x -> sided k a s y -> 0 < val x ->
     val y * (1 + bpow radix2 (-50) * (1 + Rabs (val (edge64 g a s)) / val x)) <= most) ->
  val (kappa p) <= most.
Proof.
  intros g t k b kappa p most U H E Hp M. destruct (float_bound g t k b U H M) as (kappa' & w' & E' & W' & A).
  rewrite E in E'. injection E' as <-. destruct (A p Hp) as (_ & _ & _ & _ & _ & _ & L). apply L.
Qed.
Print Assumptions float_extinction_limited.

(** "The inner edge is considered in between the boundaries" (bound.py:112) fails: with ten points at steps of 0.1 and
    boundaries of 0.4, the points are the doubles nearest to -0.5, -0.4, ..., and that nearest to -0.1 is not between them. *)
Definition ten_points : args BN := call (counts [10%Z]) (Some (DFlt, [literal 1 10])) None None None None.
Theorem float_inner_edge_refuted : exists g b within,
  construct BN ten_points = Ok g /\ linear_bound BN g (SScalar (literal 4 10)) (SScalar (literal 1 4)) = Ok b /\ between BN b = Ok within /\
  neqb BN (coordinate g 0 0) (literal (-5) 10) = true /\ neqb BN (coordinate g 0 4) (literal (-1) 10) = true /\
  within (fun _ => 4%nat) = false.
Proof.
  destruct (rmap_ok (fun z : grid BN * bound BN * ((nat -> nat) -> bool) => let '(g, b, w) := z in
      (neqb BN (coordinate g 0 0) (literal (-5) 10), neqb BN (coordinate g 0 4) (literal (-1) 10), w (fun _ => 4%nat)))
    (do g <- construct BN ten_points; do b <- linear_bound BN g (SScalar (literal 4 10)) (SScalar (literal 1 4)); do w <- between BN b; Ok (g, b, w))
    (true, true, false)) as (((g & b) & w) & E & V); [vm_compute; reflexivity|].
  apply bind_ok in E as (g' & Eg & E). apply bind_ok in E as (b' & Eb & E). apply bind_ok in E as (w' & Ew & E). injection E as -> -> ->.
  injection V as V1 V2 V3. exists g, b, w. exact (conj Eg (conj Eb (conj Ew (conj V1 (conj V2 V3))))).
Qed.
Print Assumptions float_inner_edge_refuted.

(** The maximum extinction coefficient is not quite the maximum: with six points at steps of 0.5 and boundaries of 0.1,
    the outermost point exceeds it. *)
Definition six_points : args BN := call (counts [6%Z]) (Some (DFlt, [literal 5 10])) None None None None.
Theorem float_extinction_exceeded_refuted : exists g b kappa,
  construct BN six_points = Ok g /\ linear_bound BN g (SScalar (literal 1 10)) (SScalar (literal 1 4)) = Ok b /\ extinction BN b = Ok kappa /\
  nleb BN (kappa (fun _ => 0%nat)) (literal 1 4) = false.
Proof.
  destruct (rmap_ok (fun z : grid BN * bound BN * ((nat -> nat) -> BN) => let '(g, b, w) := z in
      nleb BN (w (fun _ => 0%nat)) (literal 1 4))
    (do g <- construct BN six_points; do b <- linear_bound BN g (SScalar (literal 1 10)) (SScalar (literal 1 4)); do w <- extinction BN b; Ok (g, b, w))
    false) as (((g & b) & w) & E & V); [vm_compute; reflexivity|].
  apply bind_ok in E as (g' & Eg & E). apply bind_ok in E as (b' & Eb & E). apply bind_ok in E as (w' & Ew & E). injection E as -> -> ->.
  exists g, b, w. exact (conj Eg (conj Eb (conj Ew V))).
Qed.
Print Assumptions float_extinction_exceeded_refuted.

(** The hypotheses are met by ten points at steps of 0.1 with boundaries of 0.4 and a maximum extinction of 1/4. *)
Example ten_points_upright : exists g b, construct BN ten_points = Ok g /\ upright64 g /\
  linear_bound BN g (SScalar (literal 4 10)) (SScalar (literal 1 4)) = Ok b /\
  (forall a s x, (a < ndim BN g)%nat -> (s < 2)%nat -> sided (SScalar (literal 4 10)) a s x \/ sided (SScalar (literal 1 4)) a s x -> moderate x /\ 0 <= val x) /\
  (forall a s x, (a < ndim BN g)%nat -> (s < 2)%nat -> sided (SScalar (literal 1 4)) a s x -> 0 < val x) /\
  inside64 g (fun _ => 4%nat).
Proof.
  assert (P4 : moderate (literal 4 10) /\ 0 < val (literal 4 10)) by (apply positive_tested; vm_compute; reflexivity).
  assert (P1 : moderate (literal 1 4) /\ 0 < val (literal 1 4)) by (apply positive_tested; vm_compute; reflexivity).
  destruct (rmap_ok (fun g => ((ndim BN g, shape BN g 0%nat, origin_at_center BN g 0%nat),
      (multidimensional BN g, short_step BN g),
      moderate_test (spacing g 0) && nleb BN milli (spacing g 0), forallb (fun j => moderate_test (coordinate g 0 j)) (seq 0 10)))
    (construct BN ten_points) ((1%nat, 10%Z, true), (true, false), true, true)) as (g & E & V); [vm_compute; reflexivity|].
  assert (forallb (fun j => moderate_test (coordinate g 0 j)) (seq 0 10) = true) as V7 by exact (f_equal snd V).
  assert (moderate_test (spacing g 0) && nleb BN milli (spacing g 0) = true) as V6 by exact (f_equal (fun z => snd (fst z)) V).
  apply (f_equal (fun z => fst (fst z))) in V. cbn [fst] in V. injection V as V1 V2 V3 V4 V5.
  eexists g, _. refine (conj E (conj _ (conj eq_refl (conj _ (conj _ _))))).
  - split.
    + refine (conj _ (conj V4 (conj V5 _))); rewrite V1; [lia|]. intros [|i] Hi; [|lia]. unfold sized. rewrite V2. lia.
    + intros a Ha. rewrite V1 in Ha. destruct a as [|a]; [|lia]. destruct (positive_tested _ V6) as [[Fs _] Ps].
      refine (conj V3 (conj Fs (conj Ps _))). intros j Hj. rewrite V2 in Hj. apply moderate_tested.
      rewrite forallb_forall in V7. apply V7. apply in_seq. lia.
  - intros a s x _ _ [->| ->]; split; try tauto; apply Rlt_le; tauto.
  - intros a s x _ _ ->. tauto.
  - intros a Ha. rewrite V1 in Ha. destruct a as [|a]; [|lia]. rewrite V2. lia.
Qed.
