(** Proofs about arithmetic of grids with operands of any size: C203. *)
From Coq Require Import Reals Lra Lia.
From Verif Require Import Base Num Grid_Model Grid_Spec Grid_Proofs Grid_Rebuild Grid_Ops Operand_Model.
Local Open Scope R_scope.

Lemma combine_axes (op : R -> R -> R) (u : nat -> R) l : forall k, map (fun xy => op (fst xy) (snd xy)) (combine (map u (seq k (length l))) l) = map (fun i => op (u i) (nth (i - k) l 0)) (seq k (length l)).
Proof.
  induction l as [|x l IH]; intros k; [reflexivity|]. cbn [length seq map combine fst snd]. f_equal; [rewrite Nat.sub_diag; reflexivity|]. rewrite IH. apply map_ext_in. intros i Hi. apply in_seq in Hi. replace (i - k)%nat with (S (i - S k)) by lia. reflexivity.
Qed.
Lemma broadcast_fits g (op : R -> R -> R) u o : operand_fits g o -> exists v, to_ndim RN (ndim RN g) (operand_arg RN o) = Ok v /\ tag RN v = kind RN o /\
  broadcast2 RN op (map u (axes (ndim RN g))) (elements RN o) = Ok (map (fun i => op (u i) (at_ RN v i)) (axes (ndim RN g))).
Proof.
  assert (forall d l, length l = 1%nat \/ length l = ndim RN g -> exists v, to_ndim RN (ndim RN g) (AVector RN d l) = Ok v /\ tag RN v = d /\
    broadcast2 RN op (map u (axes (ndim RN g))) l = Ok (map (fun i => op (u i) (at_ RN v i)) (axes (ndim RN g)))) as Q.
  { intros d l. generalize (ndim RN g). intros n H. assert (length l = 1%nat \/ length l <> 1%nat /\ length l = n) as [H1|[H1 <-]] by lia.
    - destruct l as [|y [|]]; try discriminate H1. eexists. split; [reflexivity|]. split; [reflexivity|]. cbn [at_]. destruct (axes n) as [|a [|b r]]; cbn; rewrite ?map_map; reflexivity.
    - exists {| tag := d; at_ := fun i => nth i l 0 |}. split; [|split; [reflexivity|]].
      + destruct l as [|y [|y' l]]; [reflexivity|exfalso; apply H1; reflexivity|]. cbn [to_ndim]. rewrite Nat.eqb_refl. reflexivity.
      + transitivity (Ok (map (fun xy => op (fst xy) (snd xy)) (combine (map u (axes (length l))) l))).
        * destruct l as [|y [|y' l]]; [reflexivity|exfalso; apply H1; reflexivity|]. unfold broadcast2, axes. cbn [length seq map]. rewrite !map_length, seq_length, Nat.eqb_refl. reflexivity.
        * unfold axes. rewrite combine_axes. f_equal. apply map_ext. intros i. rewrite Nat.sub_0_r. reflexivity. }
  destruct o as [d x|d l|d l]; cbn [operand_fits elements kind operand_arg]; [|apply Q..]. intros _. destruct (Q d [x] (or_introl eq_refl)) as (v & V). exists v. exact V.
Qed.
Lemma only_first_fits g d f : regular g -> only_first RN g d (map f (axes (ndim RN g))) = Ok (vec_arg RN g d f).
Proof. intros (_ & M & _). unfold only_first, vec_arg. destruct (multidimensional RN g); [reflexivity|]. rewrite (M eq_refl). reflexivity. Qed.
Theorem add_any_fits g o : regular g -> operand_fits g o -> add_any RN g o = add RN g o.
Proof.
  intros Rg F. destruct (broadcast_fits g (nadd RN) (at_ RN (center RN g)) o F) as (v & E & T & B). unfold add_any, add, centers. rewrite B, E. cbn [bind]. rewrite only_first_fits by exact Rg. cbn [bind]. unfold vadd. cbn [tag at_]. rewrite T. reflexivity.
Qed.
Theorem mul_any_fits g o : regular g -> operand_fits g o -> mul_any RN g o = mul RN g o.
Proof.
  intros Rg F. destruct (broadcast_fits g (nmul RN) (at_ RN (center RN g)) o F) as (v & E & T & B). destruct (broadcast_fits g (nmul RN) (at_ RN (step RN g)) o F) as (v' & E' & T' & B'). rewrite E in E'. injection E' as <-.
  unfold mul_any, mul, centers, steps. rewrite (proj1 Rg), B, B', E. cbn [bind]. rewrite !only_first_fits by exact Rg. cbn [bind]. unfold vmul. cbn [tag at_]. rewrite T. reflexivity.
Qed.
Lemma broadcast_rejects g (op : R -> R -> R) u o : (2 <= ndim RN g)%nat -> ~ operand_fits g o -> broadcast2 RN op (map u (axes (ndim RN g))) (elements RN o) = Err ValueError.
Proof.
  intros N2 F. assert (forall l, ~ (length l = 1%nat \/ length l = ndim RN g) -> broadcast2 RN op (map u (axes (ndim RN g))) l = Err ValueError) as Q.
  { intros l H. unfold broadcast2. assert (length (map u (axes (ndim RN g))) = ndim RN g) as L by (rewrite map_length; apply axes_length). destruct (map u (axes (ndim RN g))) as [|a [|a' r]]; [cbn in L; lia..|].
    destruct (Nat.eqb_spec (length (a :: a' :: r)) (length l)) as [E|E]; [exfalso; apply H; right; rewrite <- E; exact L|]. destruct l as [|y [|y' l]]; [reflexivity|exfalso; apply H; left; reflexivity|reflexivity]. }
  destruct o as [d x|d l|d l]; cbn in F |- *; [exfalso; apply F; exact I|apply Q, F..].
Qed.
Theorem any_rejects g o : regular g -> (2 <= ndim RN g)%nat -> ~ operand_fits g o -> add_any RN g o = Err ValueError /\ mul_any RN g o = Err ValueError.
Proof. intros Rg N2 F. unfold add_any, mul_any, centers, steps. rewrite (proj1 Rg), !broadcast_rejects by assumption. split; reflexivity. Qed.
(** A grid that is not multi-dimensional uses the first element. *)
Theorem any_first g o x l : regular g -> multidimensional RN g = false -> elements RN o = x :: l -> add_any RN g o = add RN g (OScalar RN (kind RN o) x) /\ mul_any RN g o = mul RN g (OScalar RN (kind RN o) x).
Proof.
  intros Rg M E. pose proof Rg as (S1 & N1 & _). specialize (N1 M). rewrite <- (add_any_fits g (OScalar RN (kind RN o) x) Rg I), <- (mul_any_fits g (OScalar RN (kind RN o) x) Rg I).
  unfold add_any, mul_any, centers, steps. rewrite E, S1, N1. cbn [elements kind axes seq map]. unfold only_first. rewrite M. split; destruct l as [|y l]; reflexivity.
Qed.
(** A multi-dimensional grid of one axis gets an axis for each element. *)
Theorem add_any_axes g o : regular g -> multidimensional RN g = true -> ndim RN g = 1%nat -> (2 <= length (elements RN o))%nat ->
  exists h, add_any RN g o = Ok h /\ ndim RN h = length (elements RN o) /\ forall i, (i < length (elements RN o))%nat -> axis_range RN h i = map (fun x => x + nth i (elements RN o) 0) (axis_range RN g 0).
Proof.
  intros (S1 & _ & Sh) M N1 L. unfold add_any, centers. rewrite N1. set (l := elements RN o) in *. set (d := join _ _). cbn [axes seq map].
  assert (broadcast2 RN (nadd RN) [at_ RN (center RN g) 0] l = Ok (map (nadd RN (at_ RN (center RN g) 0)) l)) as -> by (destruct l as [|x [|y l']]; cbn in L; [lia..|reflexivity]).
  cbn [bind]. unfold only_first. rewrite M. cbn [bind].
  assert (to_ndim RN (length l) (AVector RN d (map (nadd RN (at_ RN (center RN g) 0)) l)) = Ok (Build_vec RN d (fun i => nth i (map (nadd RN (at_ RN (center RN g) 0)) l) (nofZ RN 0)))) as E.
  { destruct l as [|x [|y l']]; cbn in L; [lia..|]. unfold to_ndim. rewrite map_length, Nat.eqb_refl. reflexivity. }
  unfold construct, with_center, dict, vec_arg, step_arg, flag_arg. rewrite M, S1, N1. cbn [axes seq map a_ndim a_shape a_step a_extent a_first a_center a_last a_flat a_origin_at_center a_include_last a_center_at_index].
  unfold ndim_of. cbn [a_ndim a_shape a_step a_extent a_first a_center a_last arg_size length]. rewrite map_length.
  replace (Nat.max (Nat.max (Nat.max 1 1) (Nat.max 0 0)) (Nat.max (length l) 0)) with (length l) by lia.
  cbv zeta. unfold to_ndim_opt. rewrite E. cbn [rmap bind to_ndim to_ndim_b find_shape v_shape find_step v_step find_center v_center check_extent v_extent check_last v_last check_first v_first py_step].
  eexists. split; [reflexivity|]. cbn [ndim]. split; [reflexivity|]. intros i Hi.
  rewrite (map_ext (fun x => x + nth i l 0) (fun x => 1 * x + nth i l 0)) by (intros x; ring). apply axis_range_shift.
  - cbn [shape]. unfold round_shape. cbn [at_]. specialize (Sh 0%nat ltac:(lia)). pose proof (nceil_IZR (shape RN g 0)) as Q. change (nofZ RN (shape RN g 0)) with (IZR (shape RN g 0)). rewrite Q. lia.
  - apply Sh. lia.
  - reflexivity.
  - reflexivity.
  - unfold step_of. cbn [step at_]. rewrite Rmult_1_l. reflexivity.
  - unfold center_of. cbn [center at_]. rewrite (nth_indep _ (nofZ RN 0) (nadd RN (at_ RN (center RN g) 0) 0)) by (rewrite map_length; exact Hi). rewrite (map_nth (nadd RN (at_ RN (center RN g) 0))). rewrite Rmult_1_l. reflexivity.
Qed.
Theorem mul_any_axes g o : regular g -> multidimensional RN g = true -> ndim RN g = 1%nat -> (2 <= length (elements RN o))%nat ->
  exists h, mul_any RN g o = Ok h /\ ndim RN h = length (elements RN o) /\ forall i, (i < length (elements RN o))%nat -> axis_range RN h i = map (fun x => nth i (elements RN o) 0 * x) (axis_range RN g 0).
Proof.
  intros (S1 & _ & Sh) M N1 L. unfold mul_any, centers, steps. rewrite S1, N1. set (l := elements RN o) in *. set (d := join (tag RN (step RN g)) _). set (d' := join (tag RN (center RN g)) _). cbn [axes seq map].
  assert (forall x, broadcast2 RN (nmul RN) [x] l = Ok (map (nmul RN x) l)) as B by (intros x; destruct l as [|u [|y l']]; cbn in L; [lia..|reflexivity]).
  rewrite !B. cbn [bind]. unfold only_first. rewrite M. cbn [bind].
  assert (forall e x, to_ndim RN (length l) (AVector RN e (map (nmul RN x) l)) = Ok (Build_vec RN e (fun i => nth i (map (nmul RN x) l) (nofZ RN 0)))) as E.
  { intros e x. destruct l as [|u [|y l']]; cbn in L; [lia..|]. unfold to_ndim. rewrite map_length, Nat.eqb_refl. reflexivity. }
  unfold construct, with_center, with_step, dict, vec_arg, step_arg, flag_arg. rewrite M, N1. cbn [axes seq map a_ndim a_shape a_step a_extent a_first a_center a_last a_flat a_origin_at_center a_include_last a_center_at_index].
  unfold ndim_of. cbn [a_ndim a_shape a_step a_extent a_first a_center a_last arg_size length]. rewrite !map_length.
  replace (Nat.max (Nat.max (Nat.max 1 (length l)) (Nat.max 0 0)) (Nat.max (length l) 0)) with (length l) by lia.
  cbv zeta. unfold to_ndim_opt. rewrite !E. cbn [rmap bind to_ndim to_ndim_b find_shape v_shape find_step v_step find_center v_center check_extent v_extent check_last v_last check_first v_first py_step].
  eexists. split; [reflexivity|]. cbn [ndim]. split; [reflexivity|]. intros i Hi.
  assert (forall x, nth i (map (nmul RN x) l) (nofZ RN 0) = nth i l 0 * x) as Q.
  { intros x. rewrite (nth_indep _ (nofZ RN 0) (nmul RN x 0)) by (rewrite map_length; exact Hi). rewrite (map_nth (nmul RN x)). apply Rmult_comm. }
  rewrite (map_ext (fun x => nth i l 0 * x) (fun x => nth i l 0 * x + 0)) by (intros x; ring). apply axis_range_shift.
  - cbn [shape]. unfold round_shape. cbn [at_]. specialize (Sh 0%nat ltac:(lia)). pose proof (nceil_IZR (shape RN g 0)) as Qz. change (nofZ RN (shape RN g 0)) with (IZR (shape RN g 0)). rewrite Qz. lia.
  - apply Sh. lia.
  - reflexivity.
  - reflexivity.
  - unfold step_of. cbn [step at_]. apply Q.
  - unfold center_of. cbn [center at_]. rewrite Q. ring.
Qed.
