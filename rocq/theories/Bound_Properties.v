(** C10, C11 and C60: absorbing boundaries. *)
From Coq Require Import QArith Qcanon Reals Lra.
From Verif Require Import Base Num Grid_Model Grid_Spec Grid_Rebuild Grid_Tests Bound_Model Bound_Spec Bound_Proofs Cplx.
Local Open Scope R_scope.

(** C10.  The extinction is the largest of the profiles of all sides, for any extinction function of the relative depth. *)
Theorem absorbing_bound_extinction : forall (g : grid RN) (t : sides_arg R) (f : sides_arg (R -> R)) (b : bound RN),
  upright g -> absorbing_bound RN g t f = Ok b ->
  exists kappa, extinction RN b = Ok kappa /\
    forall p, inside g p -> largest (kappa p) (fun y => exists a s x h, (a < ndim RN g)%nat /\ (s < 2)%nat /\
      sided t a s x /\ sided f a s h /\ y = profile h x (edge_distance g a s (p a))).
Proof. exact absorbing_extinction. Qed.
Print Assumptions absorbing_bound_extinction.

(** C10.  LinearBound. *)
Theorem linear_bound_extinction : forall (g : grid RN) (t k : sides_arg R) (b : bound RN),
  upright g -> linear_bound RN g t k = Ok b ->
  (forall a s kmax, (a < ndim RN g)%nat -> (s < 2)%nat -> sided k a s kmax -> 0 <= kmax) ->
  exists kappa within outside,
    extinction RN b = Ok kappa /\ between RN b = Ok within /\ beyond RN b = Ok outside /\
    forall p, inside g p ->
      (within p = true <-> forall a s x, (a < ndim RN g)%nat -> (s < 2)%nat -> sided t a s x -> x <= edge_distance g a s (p a)) /\
      outside p = negb (within p) /\
      0 <= kappa p /\
      (forall K, 0 <= K -> (forall a s kmax, (a < ndim RN g)%nat -> (s < 2)%nat -> sided k a s kmax -> kmax <= K) -> kappa p <= K) /\
      (within p = true -> kappa p = 0) /\
      ((forall a s kmax, (a < ndim RN g)%nat -> (s < 2)%nat -> sided k a s kmax -> 0 < kmax) -> outside p = true -> 0 < kappa p) /\
      (forall a s x kmax, (a < ndim RN g)%nat -> (s < 2)%nat -> sided t a s x -> sided k a s kmax ->
         0 < x -> edge_distance g a s (p a) = 0 -> kmax <= kappa p) /\
      (forall a s q, (a < ndim RN g)%nat -> (s < 2)%nat -> inside g q -> (forall i, i <> a -> q i = p i) ->
         edge_distance g a s (q a) <= edge_distance g a s (p a) ->
         (forall x, sided t a (1 - s) x -> x <= edge_distance g a (1 - s) (p a)) -> kappa p <= kappa q).
Proof. exact linear_bound_shape. Qed.
Print Assumptions linear_bound_extinction.

(** Any thickness and extinction that numpy can broadcast to (axes, 2) is accepted. *)
Theorem linear_bound_accepts : forall (g : grid RN) (t k : sides_arg R),
  broadcastable (ndim RN g) t -> broadcastable (ndim RN g) k -> exists b, linear_bound RN g t k = Ok b.
Proof. exact linear_created. Qed.
Print Assumptions linear_bound_accepts.

(** A two-dimensional grid with different boundaries on its sides meets the hypotheses. *)
Example linear_bound_ex : exists g b, upright g /\ ndim RN g = 2%nat /\ points g 0 = 3%nat /\ points g 1 = 8%nat /\
  linear_bound RN g (SMatrix [[0; 0]; [2; 3]]) (SVector [/ 4; / 2]) = Ok b /\
  (forall a s kmax, (a < ndim RN g)%nat -> (s < 2)%nat -> sided (SVector [/ 4; / 2]) a s kmax -> 0 <= kmax).
Proof.
  destruct (rebuild 2 true (AVector RN DInt (map IZR [3; 8]%Z)) DInt (fun i => nth i [3;8]%Z 0%Z)
    (AVector RN DFlt [1; / 2]) DFlt (fun i => nth i [1; /2] 0)
    None DInt (fun i => 0) (BScalar false) (fun _ => false)
    (BScalar true) (fun _ => true) (BScalar true) (fun _ => true) false)
   as (g & E & R & N & M & V & T).
  - apply (arg_is_map DInt IZR [3;8]%Z 2 0%Z eq_refl).
  - intros [|[|i]] Hi; cbn; lia.
  - apply (arg_is_list 2 DFlt [1; / 2] eq_refl).
  - auto.
  - apply flag_is_scalar.
  - apply flag_is_scalar.
  - apply flag_is_scalar.
  - discriminate.
  - destruct (V 0%nat) as (S0&T0&_&_&O0&_); [lia|]. destruct (V 1%nat) as (S1&T1&_&_&O1&_); [lia|]. cbn in S0, S1, T0, T1.
    destruct (linear_created g (SMatrix [[0; 0]; [2; 3]]) (SVector [/ 4; / 2])) as (b & B).
    + cbn. rewrite N. split; [auto|]. exists 2%nat. split; [auto|]. split; [discriminate|]. intros r [<-|[<-|[]]]; reflexivity.
    + cbn. auto.
    + exists g, b. split; [|unfold points; rewrite S0, S1; repeat split; auto].
      * split; [exact R|]. split; [exact M|]. rewrite N. intros [|[|a]] Ha; [| |exfalso; lia].
        -- rewrite T0. split; [lra|exact O0].
        -- rewrite T1. split; [lra|exact O1].
      * intros a [|[|s]] kmax Ha Hs Hk; cbn in Hk; [injection Hk as <-; lra|injection Hk as <-; lra|exfalso; lia].
Qed.

(** C11. *)
Theorem absorbing_bound_permittivity : forall (bg : Complex.C) (kappa : R),
  exists n : Complex.C, (n * n = bg)%C /\ 0 <= fst n /\
    electric_permittivity bg kappa = ((n + Ci * kappa) * (n + Ci * kappa))%C /\
    absorbing_susceptibility bg kappa = (electric_permittivity bg kappa - bg)%C /\
    (kappa = 0 -> absorbing_susceptibility bg kappa = 0%R) /\
    snd (absorbing_susceptibility bg kappa) = 2 * fst n * kappa /\
    fst (absorbing_susceptibility bg kappa) = - 2 * snd n * kappa - kappa * kappa.
Proof. exact absorbing_permittivity_ok. Qed.
Print Assumptions absorbing_bound_permittivity.
Theorem absorbing_bound_no_gain : forall (bg : Complex.C) (kappa : R),
  0 <= kappa -> 0 <= snd (absorbing_susceptibility bg kappa) /\ (0 <= snd bg -> 0 <= snd (electric_permittivity bg kappa)).
Proof. exact absorbing_no_gain. Qed.
Print Assumptions absorbing_bound_no_gain.
Example absorbing_bound_ex : absorbing_susceptibility (RtoC 4) (/ 2) = (- / 4, 2).
Proof.
  unfold absorbing_susceptibility, absorbing_permittivity. rewrite csqrt_pos by lra.
  rewrite (sqrt_lem_1 4 2) by lra. apply C_eq; cbn; lra.
Qed.

(** C60 is violated: no absorption at all, and nothing counted as inside, for decreasing coordinates ... *)
Theorem linear_bound_negative_step_refuted : forall (g : grid RN) (t k : sides_arg R) (b : bound RN),
  straight g -> (forall a, (a < ndim RN g)%nat -> step_of g a < 0) -> linear_bound RN g t k = Ok b ->
  (forall a s kmax, (a < ndim RN g)%nat -> (s < 2)%nat -> sided k a s kmax -> 0 <= kmax) ->
  exists kappa, extinction RN b = Ok kappa /\ forall p, inside g p -> kappa p = 0.
Proof. exact linear_bound_downward. Qed.
Print Assumptions linear_bound_negative_step_refuted.
Theorem bound_between_negative_step_refuted : forall (b : bound RN) (a : nat) (p : nat -> nat) (w : (nat -> nat) -> bool),
  straight (b_grid RN b) -> between RN b = Ok w -> (a < ndim RN (b_grid RN b))%nat -> step_of (b_grid RN b) a < 0 ->
  0 <= thickness RN b a 0%nat -> inside (b_grid RN b) p -> (0 < p a)%nat -> w p = false.
Proof. exact between_downward. Qed.
Print Assumptions bound_between_negative_step_refuted.
(** ... an exception for every grid made from scalars with two or more points ... *)
Theorem linear_bound_scalar_grid_refuted : forall b : bound RN,
  regular (b_grid RN b) -> multidimensional RN (b_grid RN b) = false -> (2 <= points (b_grid RN b) 0)%nat ->
  extinction RN b = Err IndexError.
Proof. exact scalar_grid_extinction. Qed.
Print Assumptions linear_bound_scalar_grid_refuted.
(** ... and up to three times the maximum extinction for a grid with its origin at the first index:
    [LinearBound(Grid([4], 1, origin_at_center=False), thickness=1, max_extinction_coefficient=1)]. *)
Definition extinction_of (a : args QN) (t k : sides_arg QN) (n : nat) : result (list Q) :=
  do g <- construct QN a; do b <- linear_bound QN g t k; do kappa <- extinction QN b;
  Ok (map (fun j => this (kappa (fun _ => j))) (seq 0 n)).
Definition shifted_grid : args QN :=
  {| a_shape := Some (zs [4]%Z); a_step := Some (z 1); a_extent := None; a_first := None; a_center := None; a_last := None;
     a_include_last := BScalar false; a_ndim := None; a_flat := BScalar false; a_origin_at_center := BScalar false;
     a_center_at_index := BScalar true |}.
Theorem linear_bound_shifted_grid_refuted :
  extinction_of shifted_grid (SScalar (nofZ QN 1)) (SScalar (nofZ QN 1)) 4 = Ok [2; 3; 3; 2]%Q.
Proof. vm_compute. reflexivity. Qed.
Print Assumptions linear_bound_shifted_grid_refuted.

(** The expectations of tests/test_bound.py (unit step). *)
Definition ten : args QN := G (Some (zs [10]%Z)) (Some (z 1)) None None None None false true.
Definition n (x : Q) : QN := Q2Qc x.
Example test_scalar : extinction_of ten (SScalar (n 4)) (SScalar (n (1#10))) 10
  = Ok [1#10; 3#40; 1#20; 1#40; 0; 0; 1#40; 1#20; 3#40; 1#10]%Q. Proof. vm_compute. reflexivity. Qed.
Example test_asymmetric : extinction_of ten (SVector [n 4; n 2]) (SVector [n (1#10); n (1#5)]) 10
  = Ok [1#10; 3#40; 1#20; 1#40; 0; 0; 0; 0; 1#10; 1#5]%Q. Proof. vm_compute. reflexivity. Qed.
Example test_one_sided : extinction_of ten (SVector [n 4; n 0]) (SVector [n (1#10); n (1#5)]) 10
  = Ok [1#10; 3#40; 1#20; 1#40; 0; 0; 0; 0; 0; 0]%Q. Proof. vm_compute. reflexivity. Qed.
