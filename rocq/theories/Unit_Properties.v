(** The unit of length of a beam: C185. *)
From Coq Require Import Reals List Arith Bool ZArith Lia Lra.
Require Import Verif.Base Verif.CSum Verif.Field Verif.Fourier_Model Verif.Vec_Model.
Require Import Verif.Beam_Model Verif.Beam_Spec Verif.Beam_Proofs Verif.Unit_Spec Verif.Unit_Proofs Verif.Cplx.
Import ListNotations.
Local Open Scope R_scope.
Local Open Scope C_scope.

(** A section shows the same fields and spectra in every unit, after an assignment and any history of reading, assigning, and propagating through any media in
    one direction, over distances that are larger than 1e-8 in both units. The wavenumber may be complex. Missing: shorter distances and other directions. *)
Theorem section_unit_partial : forall (a : R) (b : setup) (sign : R) (x : action) (l : list action) (s t : section),
  (0 < a)%R -> section_grid (bgrid b) (baxis b) -> (bcomp b <= 3)%nat -> bk b <> 0 -> (sign = 1 \/ sign = -1)%R ->
  (exists F, x = SetFt F \/ x = SetField F) -> Forall (onward sign a) l ->
  forall c p, (c < 3)%nat ->
    read_ft (in_unit a b) (run (in_unit a b) t (map (action_in_unit a) (x :: l))) c p = read_ft b (run b s (x :: l)) c p /\
    read_field (in_unit a b) (run (in_unit a b) t (map (action_in_unit a) (x :: l))) c p = read_field b (run b s (x :: l)) c p.
Proof.
  intros a b sign x l s t A G Cp K Sg X H. apply (run_read a b A) with (sign := sign); try assumption; try apply G. destruct X as (F & [->| ->]); exact I.
Qed.
Print Assumptions section_unit_partial.
(** Also there and back, as long as the distance to go is never taken for zero: the field of a beam, through any media. The first position is that of the
    first slice with respect to the plane in which the field is given. *)
Theorem beam_unit_partial : forall (a : R) (b : setup) (F : vfield) (first step : R) (media : list (option sfield)),
  (0 < a)%R -> section_grid (bgrid b) (baxis b) -> (bcomp b <= 3)%nat -> bk b <> 0 -> plain_in a (first - step) -> plain_in a first -> plain_in a step ->
  forall c p, (c < 3)%nat ->
    map (fun f : vfield => f c p) (fst (beam_field (in_unit a b) (enter (in_unit a b) (set_ft (in_unit a b) F) (a * first) (a * step)) (a * step) media)) =
    map (fun f : vfield => f c p) (fst (beam_field b (enter b (set_ft b F) first step) step media)).
Proof. intros a b F first step media A G Cp K. apply beam_unit; try assumption; apply G. Qed.
Print Assumptions beam_unit_partial.
(** The restriction to distances above 1e-8 is needed: whenever propagation over a distance has an effect, there is a unit in which it has not, and so the
    results differ. *)
Theorem section_unit_refuted : forall (b : setup) (k : R) (s t : section) (F : vfield) (d : R) (q : list nat),
  bcomp b = 1%nat -> section_grid (bgrid b) (baxis b) -> (0 < k)%R -> bk b = RtoC k -> (/ 100000000 < Rabs d)%R ->
  F 0%nat q <> 0 -> cis (d * axial (bgrid b) (baxis b) k q) <> 1 ->
  exists a, (0 < a)%R /\ read_ft (in_unit a b) (run (in_unit a b) t (map (action_in_unit a) [SetFt F; Propagate d None])) 0%nat q <> read_ft b (run b s [SetFt F; Propagate d None]) 0%nat q.
Proof.
  intros b k s t F d q N G K BK D NZ NP. exists (/ 100000000 / Rabs d)%R. split; [apply Rdiv_lt_0_compat; lra|].
  destruct (short_unit b s t F d k q N G K BK D NZ NP (/ 100000000 / Rabs d)) as [E1 E2].
  { rewrite Rabs_mult, Rabs_pos_eq by (apply Rlt_le, Rdiv_lt_0_compat; lra). right. field. lra. }
  cbn [map action_in_unit]. rewrite E1. intros E. apply E2. symmetry. exact E.
Qed.
Print Assumptions section_unit_refuted.

(** ** Concrete cases *)
(** Light with a wavelength of 500 nm, in micrometres, with three points across. *)
Definition green : setup := {| bgrid := {| rshape := [1; 1; 3]%nat; rstep := [1%R; 0%R; (1 / 10)%R] |}; bfirst := fun _ => 0%R; bk := RtoC (4 * PI); bn := RtoC 1; baxis := 0; bcomp := 1 |}.
Example green_grid : section_grid (bgrid green) (baxis green) /\ (bcomp green <= 3)%nat /\ bk green <> 0.
Proof.
  pose proof PI_RGT_0. split; [|split; [cbn; lia|intros E; apply (f_equal fst) in E; cbn in E; lra]].
  repeat split; try (cbn; lia); try (repeat constructor; lia). intros c Hc H1. destruct c as [|[|[|]]]; cbn in *; lia || lra.
Qed.
(** Steps of a tenth of a micrometre can be in micrometres or in metres. *)
Example green_onward : forall n f, Forall (onward 1 (/ 1000000)) [Propagate (1 / 10) (Some n); ReadField; SetField f; Propagate (1 / 10) None; ReadFt; Propagate (1 / 10) (Some n)].
Proof. intros n f. repeat constructor; cbn; lra. Qed.
Example green_beam : plain_in (/ 1000000) (0 - 1 / 10) /\ plain_in (/ 1000000) 0 /\ plain_in (/ 1000000) (1 / 10).
Proof. repeat split; try (left; lra); right; (rewrite Rabs_pos_eq by lra; lra) || (rewrite Rabs_left by lra; lra). Qed.
(** Steps of ten nanometres cannot be in metres. *)
Example green_metres : forall s t, read_ft (in_unit (/ 1000000) green) (run (in_unit (/ 1000000) green) t [SetFt (fun _ _ => RtoC 1); Propagate (/ 1000000 * (1 / 100)) None]) 0%nat [0; 0; 0]%nat = RtoC 1 /\
  read_ft green (run green s [SetFt (fun _ _ => RtoC 1); Propagate (1 / 100) None]) 0%nat [0; 0; 0]%nat <> RtoC 1.
Proof.
  intros s t. pose proof PI_RGT_0 as P. pose proof PI_4 as P4. apply (short_unit green s t (fun _ _ => RtoC 1) (1 / 100) (4 * PI) [0; 0; 0]%nat).
  - reflexivity.
  - apply green_grid.
  - lra.
  - reflexivity.
  - rewrite Rabs_pos_eq; lra.
  - intros E. apply (f_equal fst) in E. cbn in E. lra.
  - unfold axial, kt2. rewrite rsum3. cbn [green bgrid baxis Nat.eqb]. unfold kvec, k_axis. cbn [rshape rstep nth]. change (k_index 1 0) with 0%Z. change (k_index 3 0) with 0%Z.
    replace (4 * PI * (4 * PI) - _)%R with (4 * PI * (4 * PI))%R by (unfold Rdiv; ring). rewrite Rmax_right by nra. rewrite sqrt_square by lra.
    intros E. apply (f_equal snd) in E. unfold cis in E. cbn [snd RtoC] in E. assert (0 < sin (1 / 100 * (4 * PI)))%R by (apply sin_gt_0; lra). lra.
  - rewrite Rabs_pos_eq; lra.
Qed.
