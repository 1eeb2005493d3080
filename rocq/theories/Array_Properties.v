(** Theorems about arrays of tensors (C28, C79), assignments (C52, C76, C77, C78) and the decisions of the constructor (C24, C80). *)
From Coq Require Import Reals Lra List Arith Bool ZArith Lia.
Require Import Verif.Base Verif.Cplx Verif.CSum Verif.Solver_Model Verif.Array_Model Verif.Array_Spec Verif.Array_Proofs Verif.Array_Assign Verif.Array_Glue Verif.Setup_Model Verif.Setup_Proofs.
Import ListNotations.
Local Open Scope R_scope.
Local Open Scope C_scope.

(** ** C28 *)
(** Products, differences, inverses and adjoints are those of the tensors at every position, for every mixture of representations. *)
Theorem mul_is_matrix_product : forall gs a b, tensor_array 3 gs a -> tensor_array 3 gs b ->
  exists c, mul a b = Ok c /\ tensor_array 3 gs c /\
  forall i k p, (i < 3)%nat -> (k < 3)%nat -> inside gs p -> entry c i k p = csum 3 (fun j => entry a i j p * entry b j k p).
Proof. exact mul_entries. Qed.
Print Assumptions mul_is_matrix_product.
Theorem mul_applies_matrix : forall gs a b, tensor_array 3 gs a -> vector_array 3 gs b ->
  exists c, mul a b = Ok c /\ vector_array 3 gs c /\
  forall i p, (i < 3)%nat -> inside gs p -> component c i p = csum 3 (fun j => entry a i j p * component b j p).
Proof. exact mul_components. Qed.
Print Assumptions mul_applies_matrix.
Theorem subtract_is_difference : forall gs a b, tensor_array 3 gs a -> tensor_array 3 gs b ->
  exists c, subtract 3 (length gs) a b = Ok c /\ tensor_array 3 gs c /\
  forall i j p, (i < 3)%nat -> (j < 3)%nat -> inside gs p -> entry c i j p = entry a i j p - entry b i j p.
Proof. exact subtract_entries. Qed.
Print Assumptions subtract_is_difference.
Theorem adjoint_is_adjoint : forall gs a, tensor_array 3 gs a -> tensor_array 3 gs (adjoint a) /\
  forall i j p, (i < 3)%nat -> (j < 3)%nat -> inside gs p -> entry (adjoint a) i j p = Cconj (entry a j i p).
Proof. exact adjoint_entries. Qed.
Print Assumptions adjoint_is_adjoint.
Theorem inverse_is_inverse : forall gs a, tensor_array 3 gs a -> regular gs a ->
  exists c, inverse (length gs) a = Ok c /\ tensor_array 3 gs c /\
  forall i k p, (i < 3)%nat -> (k < 3)%nat -> inside gs p ->
    csum 3 (fun j => entry c i j p * entry a j k p) = (if (i =? k)%nat then 1 else 0) /\
    csum 3 (fun j => entry a i j p * entry c j k p) = (if (i =? k)%nat then 1 else 0).
Proof. exact inverse_entries. Qed.
Print Assumptions inverse_is_inverse.
(** The canonical forms of numbers, arrays on the grid, columns, rows and matrices have the same values; they do not change again. *)
Theorem canonical_number : forall gs x, tensor_array 3 gs (to_matrix_field (length gs) (number x)) /\
  forall i j p, entry (to_matrix_field (length gs) (number x)) i j p = if (i =? j)%nat then x else 0.
Proof. exact number_entries. Qed.
Print Assumptions canonical_number.
Theorem canonical_grid : forall gs a, ashape a = gs -> tensor_array 3 gs (to_matrix_field (length gs) a) /\
  forall i j p, inside gs p -> entry (to_matrix_field (length gs) a) i j p = if (i =? j)%nat then aget a p else 0.
Proof. exact grid_entries. Qed.
Print Assumptions canonical_grid.
Theorem canonical_column : forall gs a, ashape a = 3%nat :: gs -> vector_array 3 gs (to_matrix_field (length gs) a) /\
  forall i p, (i < 3)%nat -> inside gs p -> component (to_matrix_field (length gs) a) i p = aget a (i :: p).
Proof. exact column_components. Qed.
Print Assumptions canonical_column.
Theorem canonical_row : forall gs a, ashape a = 1%nat :: 3%nat :: gs -> vector_array 3 gs (to_matrix_field (length gs) a) /\
  forall i p, (i < 3)%nat -> inside gs p -> component (to_matrix_field (length gs) a) i p = aget a (0%nat :: i :: p).
Proof. exact row_components. Qed.
Print Assumptions canonical_row.
Theorem canonical_matrix : forall gs a, ashape a = 3%nat :: 3%nat :: gs -> to_matrix_field (length gs) a = a.
Proof. exact matrix_unchanged. Qed.
Print Assumptions canonical_matrix.
Theorem canonical_idempotent : forall nd a, to_matrix_field nd (to_matrix_field nd a) = to_matrix_field nd a.
Proof. exact tmf_idempotent. Qed.
Print Assumptions canonical_idempotent.
(** The tensor operations in the model of the solver are those on arrays. *)
Theorem arrays_refine_tensors : forall gs a b ta tb, represents gs a ta -> represents gs b tb ->
  (exists c, mul a b = Ok c /\ represents gs c (tmul ta tb)) /\
  (exists c, subtract 3 (length gs) a b = Ok c /\ represents gs c (tsub ta tb)) /\
  (exists c, inverse (length gs) a = Ok c /\ represents gs c (tinv ta)) /\ represents gs (adjoint a) (tadjoint ta).
Proof.
  intros gs a b ta tb Ha Hb.
  exact (conj (mul_rep gs a b ta tb Ha Hb) (conj (subtract_rep gs a b ta tb Ha Hb) (conj (inverse_rep gs a ta Ha) (adjoint_rep gs a ta Ha)))).
Qed.
Print Assumptions arrays_refine_tensors.

(** The hypotheses can be met. *)
Ltac spat := repeat first [apply Forall2_nil | apply Forall2_cons; [first [left; reflexivity | right; reflexivity]|]].
Example tensors_exist : tensor_array 3 [2; 4]%nat (identity 3 2) /\ regular [2; 4]%nat (identity 3 2) /\
  tensor_array 3 [2; 4]%nat (Arr [1; 1; 2; 4]%nat (fun p => RtoC (INR (nth 3 p 0%nat)))) /\ vector_array 3 [2; 4]%nat (Arr [3; 1; 2; 1]%nat (fun p => RtoC (INR (nth 0 p 0%nat)))).
Proof.
  split; [exists 3%nat, [1; 1]%nat; split; [reflexivity|]; split; [auto|]; spat|]. split.
  - intros p Hp. cbn [identity ashape nth Nat.eqb]. unfold det3. rewrite !(identity_element 3 [2; 4]%nat) by (try (apply inside_length; exact Hp); lia).
    unfold eye. cbn [Nat.eqb]. intros H. apply (f_equal fst) in H. cbn in H. lra.
  - split; [exists 1%nat, [2; 4]%nat|exists [2; 1]%nat]; (split; [reflexivity|]); [split; [auto|]|]; spat.
Qed.

(** ** C52 *)
(** Every array that numpy broadcasts to the shape of E can be assigned, and E then returns its broadcast values. *)
Theorem E_takes_broadcast : forall (v : bool) gs k a, Forall (fun n => 0 < n)%nat gs -> real_value k <> 0%R -> broadcasts a ((if v then 3 else 1)%nat :: gs) ->
  exists out, assign_E v gs k (VArray a) = Ok out /\ reads (if v then 3 else 1)%nat gs (get_E k out) (fun c p => bget a (c :: p)).
Proof. intros v gs k a Hg Hk. exact (assign_E_value v gs k (VArray a) a Hg Hk (ex_intro _ _ (conj (times_square_array k a) eq_refl))). Qed.
Print Assumptions E_takes_broadcast.
Theorem E_takes_number : forall (v : bool) gs k x, Forall (fun n => 0 < n)%nat gs -> real_value k <> 0%R ->
  exists out, assign_E v gs k (VNumber x) = Ok out /\ reads (if v then 3 else 1)%nat gs (get_E k out) (fun _ _ => x).
Proof.
  intros v gs k x Hg Hk. refine (assign_E_value v gs k (VNumber x) (number x) Hg Hk (times_square_number k x) (conj _ _)).
  - cbn. lia.
  - unfold lpad. cbn [number ashape length]. rewrite Nat.sub_0_r, app_nil_r. apply (ones_spatial (_ :: gs)).
Qed.
Print Assumptions E_takes_number.
(** One vector for all positions, as an array of shape (3, 1, ..., 1). *)
Theorem E_takes_vector : forall gs k a, Forall (fun n => 0 < n)%nat gs -> real_value k <> 0%R -> ashape a = 3%nat :: repeat 1%nat (length gs) ->
  exists out, assign_E true gs k (VArray a) = Ok out /\ reads 3 gs (get_E k out) (fun c _ => aget a (c :: repeat 0%nat (length gs))).
Proof. exact assign_E_vector. Qed.
Print Assumptions E_takes_vector.
(** Arrays with one axis more than the grid are rejected exactly if a size does not divide that of E; else they are repeated. *)
Theorem E_takes_array_partial : forall (v : bool) gs k a m s, Forall (fun n => 0 < n)%nat gs -> real_value k <> 0%R -> (1 <= m)%nat -> ashape a = m :: s -> length s = length gs ->
  match assign_E v gs k (VArray a) with
  | Ok out => divide_all (m :: s) ((if v then 3 else 1)%nat :: gs) /\
      reads (if v then 3 else 1)%nat gs (get_E k out) (fun c p => aget a (zip (fun i n => i mod n)%nat (c :: p) (m :: s)))
  | Err e => e = ValueError /\ ~ divide_all (m :: s) ((if v then 3 else 1)%nat :: gs)
  end.
Proof. exact assign_E_array. Qed.
Print Assumptions E_takes_array_partial.
(** An array that does not broadcast but is accepted: two values for four points. *)
Theorem E_rejects_others_refuted : exists gs a, ~ broadcasts a (1%nat :: gs) /\ exists out, assign_E false gs (PyFloat 1) (VArray a) = Ok out.
Proof. exact not_rejected. Qed.
Print Assumptions E_rejects_others_refuted.
(** The source, after a source of the full shape. *)
Theorem source_takes_broadcast : forall (v : bool) gs ai beta o a, Forall (fun n => 0 < n)%nat gs -> ai <> 0%R -> beta <> 0%R ->
  ashape o = field_shape v gs -> broadcasts a ((if v then 3 else 1)%nat :: gs) ->
  exists out, assign_source v gs ai beta (Some o) (VArray a) = Ok out /\ ashape out = field_shape v gs /\
    reads (if v then 3 else 1)%nat gs (get_source ai beta out) (fun c p => bget a (c :: p)).
Proof. exact source_replace. Qed.
Print Assumptions source_takes_broadcast.

Example broadcasts_exist : broadcasts (Arr [4]%nat (fun p => RtoC (INR (nth 0 p 0%nat)))) [3; 2; 4]%nat /\ broadcasts (Arr [3; 1; 4]%nat (fun p => RtoC (INR (nth 0 p 0%nat)))) [3; 2; 4]%nat.
Proof. split; (split; [cbn; lia|]); spat. Qed.

(** ** C76 *)
(** A single vector of shape (3,) is laid out along the last axis of the grid, or rejected. *)
Theorem single_vector_refuted :
  (exists out, assign_E true [3%nat] (PyFloat 1) (VArray (of_list [RtoC 1; RtoC 2; RtoC 3])) = Ok out /\
    reads 3 [3%nat] (get_E (PyFloat 1) out) (fun c p => RtoC (INR (nth 0 p 0%nat + 1)))) /\
  assign_E true [4%nat] (PyFloat 1) (VArray (of_list [RtoC 1; RtoC 2; RtoC 3])) = Err ValueError.
Proof. exact (conj vector_last_axis vector_rejected). Qed.
Print Assumptions single_vector_refuted.

(** ** C77 *)
(** A list is taken as an array if the wavenumber is a number of numpy. *)
Theorem list_as_array_partial : forall v gs r l, assign_E v gs (NpFloat r) (VList l) = assign_E v gs (NpFloat r) (VArray (of_list l)).
Proof. exact list_numpy. Qed.
Print Assumptions list_as_array_partial.
(** With a Python float no list can be assigned; with the int 2, [1] gives a field of 1/4. *)
Theorem list_as_array_refuted : (forall v gs r l, assign_E v gs (PyFloat r) (VList l) = Err TypeError) /\
  exists out, assign_E false [4%nat] (PyInt 2) (VList [RtoC 1]) = Ok out /\ aget (get_E (PyInt 2) out) [0%nat; 0%nat] = RtoC (/ 4).
Proof. exact (conj list_float list_int). Qed.
Print Assumptions list_as_array_refuted.

(** ** C78 *)
(** A first source of the full shape is returned as it is, and can be replaced as often as wanted. *)
Theorem first_source : forall (v : bool) gs ai beta a, ai <> 0%R -> beta <> 0%R -> ashape a = (if v then 3 else 1)%nat :: gs ->
  exists o, assign_source v gs ai beta None (VArray a) = Ok o /\ ashape o = field_shape v gs /\
    reads (if v then 3 else 1)%nat gs (get_source ai beta o) (fun c p => aget a (c :: p)).
Proof. exact source_full. Qed.
Print Assumptions first_source.
(** After a number, or a scalar field in a vectorial problem, nothing can be assigned any more. *)
Theorem source_replaceable_refuted :
  (forall (v : bool) gs ai beta x o s, Forall (fun n => 0 < n)%nat gs -> v = true \/ Exists (fun n => n <> 1%nat) gs ->
    assign_source v gs ai beta None (VNumber x) = Ok o -> (adim (asarray s) <= length gs + 2)%nat -> assign_source v gs ai beta (Some o) s = Err ValueError) /\
  (forall gs ai beta a o s, Forall (fun n => 0 < n)%nat gs -> ashape a = gs ->
    assign_source true gs ai beta None (VArray a) = Ok o -> (adim (asarray s) <= length gs + 2)%nat -> assign_source true gs ai beta (Some o) s = Err ValueError).
Proof. exact (conj source_number_stuck source_flat_stuck). Qed.
Print Assumptions source_replaceable_refuted.
Example number_source : exists o, assign_source true [4%nat] 1 1 None (VNumber 1) = Ok o.
Proof. eexists. reflexivity. Qed.

(** ** C79 *)
(** Left division by regular matrices, of matrices or vectors. *)
Theorem ldivide_solves_partial : forall gs a u n t, ashape a = 3%nat :: 3%nat :: t -> spatial gs t -> regular gs a ->
  forall s, ashape u = 3%nat :: n :: s -> spatial gs s -> (1 <= n)%nat ->
  exists c r, ldivide (length gs) a u = Ok c /\ ashape c = 3%nat :: n :: r /\ spatial gs r /\
  forall i k p, (i < 3)%nat -> (k < n)%nat -> inside gs p -> csum 3 (fun j => entry a i j p * element c (j :: k :: p)) = element u (i :: k :: p).
Proof. exact ldivide_solves. Qed.
Print Assumptions ldivide_solves_partial.
(** Identity matrices and the scalar field p give 1 on the diagonal at p = 0, where the scalar field is 0. *)
Theorem ldivide_scalar_refuted : exists c, ldivide 1 eye_field ramp_field = Ok c /\ ashape c = [3; 3; 3]%nat /\ aget c [1; 1; 0]%nat = RtoC 1 /\ aget ramp_field [0; 0; 0]%nat = RtoC 0.
Proof. exact ldivide_ramp. Qed.
Print Assumptions ldivide_scalar_refuted.

(** ** C24 *)
Theorem frequency_takes_precedence : forall c w l k, (0 < c)%R -> angular_frequency_of c (choose_wavenumber c (Some w) l k) = w.
Proof. exact frequency_first. Qed.
Print Assumptions frequency_takes_precedence.
Theorem wavelength_takes_precedence : forall c l k, (0 < l)%R -> wavelength_of (choose_wavenumber c None (Some l) k) = l.
Proof. exact wavelength_second. Qed.
Print Assumptions wavelength_takes_precedence.
Theorem wavenumber_otherwise : forall c k, choose_wavenumber c None None k = k.
Proof. exact (fun _ _ => eq_refl). Qed.
Print Assumptions wavenumber_otherwise.
Theorem wavenumbers_consistent : forall c w l k, (0 < c)%R -> let k' := choose_wavenumber c w l k in k' <> 0%R ->
  (wavelength_of k' * k' = 2 * PI)%R /\ (angular_frequency_of c k' * wavelength_of k' = 2 * PI * c)%R.
Proof. exact consistent. Qed.
Print Assumptions wavenumbers_consistent.
Theorem vectorial_choice : forall gs j s dt,
  (forall b, fst (setup gs (Some b) j s dt) = b) /\ fst (setup gs None None None dt) = true /\
  (forall src, s = Some src \/ s = None /\ j = Some src ->
    (fst (setup gs None j s dt) = true <-> exists t, sshape src = 3%nat :: t /\ (length gs <= length t)%nat)).
Proof.
  intros gs j s dt. refine (conj (fun b => vectorial_set gs b j s dt) (conj (vectorial_none gs dt) _)).
  intros src [-> | [-> ->]]; [exact (vectorial_source gs j src dt)|exact (vectorial_current gs src dt)].
Qed.
Print Assumptions vectorial_choice.
Theorem dtype_always_complex : forall gs v j s dt, is_complex (snd (setup gs v j s dt)) = true.
Proof. exact dtype_complex. Qed.
Print Assumptions dtype_always_complex.
Theorem dtype_complex64 : forall gs v j s dt, snd (setup gs v j s dt) = DComplex64 <->
  In match dt, s, j with Some d, _, _ => d | None, Some x, _ => stype x | None, None, Some x => stype x | None, None, None => DComplex128 end [DComplex64; DFloat16; DFloat32].
Proof. exact dtype_single. Qed.
Print Assumptions dtype_complex64.
Theorem dtype_as_given : forall gs v j s d, is_complex d = true -> snd (setup gs v j s (Some d)) = d.
Proof. exact dtype_given. Qed.
Print Assumptions dtype_as_given.

(** ** C80 *)
Theorem dtype_two_values_refuted : forall gs, snd (setup gs None None (Some {| sshape := gs; stype := DCLongDouble |}) None) = DCLongDouble.
Proof. exact dtype_long. Qed.
Print Assumptions dtype_two_values_refuted.
