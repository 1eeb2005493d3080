(** The torch back-end: C120, C121, C122. *)
From Coq Require Import Reals Lra List Arith Bool Lia Sorted.
Require Import Verif.Base Verif.Num Verif.Cplx Verif.CSum Verif.Solver_Model Verif.Modes_Model Verif.Array_Model Verif.Array_Spec Verif.Array_Proofs Verif.Array_Assign
  Verif.Roots_Model Verif.Roots_Spec Verif.Torch_Model Verif.Torch_Spec Verif.Torch_Proofs Verif.Torch_Roots.
Import ListNotations.
Local Open Scope R_scope.
Local Open Scope C_scope.

(** ** The results do not depend on the array library *)
(** Products of arrays with as many axes, scalar or with equal inner sizes. *)
Theorem torch_products : forall a b, (2 <= adim a)%nat -> adim a = adim b ->
  is_scalar a = true \/ is_scalar b = true \/ nth 1 (ashape a) 0%nat = nth 0 (ashape b) 0%nat -> same_result (mul a b) (torch_mul a b).
Proof. exact torch_mul_same. Qed.
Print Assumptions torch_products.
(** Hence the product of tensor fields is the product of the matrices at every position. *)
Theorem torch_matrix_product : forall gs a b, tensor_array 3 gs a -> tensor_array 3 gs b -> exists c d, mul a b = Ok c /\ torch_mul a b = Ok d /\ same_array c d.
Proof.
  intros gs a b Ha Hb. destruct (mul_entries gs a b Ha Hb) as (c & E & _). exists c. assert (same_result (mul a b) (torch_mul a b)) as H.
  { destruct Ha as (m & s & Ea & Hm & Hs), Hb as (n & t & Eb & Hn & Ht). apply spatial_length in Hs. apply spatial_length in Ht. apply torch_mul_same.
    - unfold adim. rewrite Ea. cbn. lia.
    - unfold adim. rewrite Ea, Eb. cbn. congruence.
    - unfold is_scalar. rewrite Ea, Eb. cbn [nth]. destruct Hm as [-> | ->]; [|left; reflexivity]. destruct Hn as [-> | ->]; [right; right; reflexivity|right; left; reflexivity]. }
  rewrite E in H. destruct (torch_mul a b) as [d|]; [|contradiction]. exists d. split; [exact E|]. split; [reflexivity|exact H].
Qed.
Print Assumptions torch_matrix_product.
(** Assigning the field: what is accepted and the new field, for numbers, lists, and arrays with up to two more axes than the grid. *)
Theorem torch_assigns_E : forall v gs k E, Forall (fun n => 0 < n)%nat gs -> (forall x, times_square E k = Ok x -> adim (asarray x) <= length gs + 2)%nat ->
  same_result (assign_E v gs k E) (torch_assign_E v gs k E).
Proof. exact torch_assign_E_same. Qed.
Print Assumptions torch_assigns_E.
(** Assigning the source, the first time and when the source has the shape of the field. *)
Theorem torch_assigns_source_partial : forall v gs ai beta o s, Forall (fun n => 0 < n)%nat gs -> (adim (asarray s) <= length gs + 2)%nat ->
  match o with Some a => ashape a = field_shape v gs | None => True end ->
  same_result (assign_source v gs ai beta o s) (torch_assign_source gs ai beta o s).
Proof. exact torch_source_same. Qed.
Print Assumptions torch_assigns_source_partial.
(** Not for a number that replaces a number, not for fields with more axes, and not for products with one inner size of 1. *)
Theorem torch_same_refuted :
  (let o := to_matrix_field 1 (number (Ci / RtoC 1 / RtoC 1)) in
   assign_source true [2%nat] 1%R 1%R (Some o) (VNumber (RtoC 2)) = Err ValueError /\ exists c, torch_assign_source [2%nat] 1%R 1%R (Some o) (VNumber (RtoC 2)) = Ok c) /\
  (exists a, assign true [2%nat] (field_shape true [2%nat]) a = Err ValueError /\ exists c, torch_assign [2%nat] (field_shape true [2%nat]) a = Ok c) /\
  (exists a c, mul a a = Ok c /\ torch_mul a a = Err ValueError).
Proof. split; [exact number_after_number|]. split; [eexists; exact excess_axes|]. exists column. exact inner_singleton. Qed.
Print Assumptions torch_same_refuted.

(** ** Products with a destination *)
(** When the right factor is the destination and has the shape of the product: the returned array is the product, with numpy the destination too, with
    torch only if one of the factors is scalar. *)
Theorem product_into_right : forall a b c, (2 <= adim a)%nat -> adim a = adim b -> is_scalar a = true \/ is_scalar b = true \/ nth 1 (ashape a) 0%nat = nth 0 (ashape b) 0%nat ->
  mul a b = Ok c -> ashape c = ashape b ->
  (exists r, mul_into a b b = Ok (r, r) /\ same_array c r) /\
  (exists r, torch_mul_into a b b = Ok (r, if is_scalar a || is_scalar b then r else b) /\ same_array c r).
Proof. intros a b c H1 H2 H3 H4 H5. split; [apply into_right; assumption|apply torch_into_right; assumption]. Qed.
Print Assumptions product_into_right.
(** Any other destination of the right shape, for factors that are not scalar: numpy writes the product. *)
Theorem product_into_partial : forall a b c out, is_scalar a || is_scalar b = false -> mul a b = Ok c -> ashape c = ashape out -> mul_into a b out = Ok (c, c).
Proof. intros a b c out H1 H2 H3. unfold mul in H2. unfold mul_into. rewrite H1 in *. rewrite H2. cbn [bind]. destruct (list_eq_dec _ _ _); [reflexivity|contradiction]. Qed.
Print Assumptions product_into_partial.
(** With torch it is left as it was. *)
Theorem torch_product_into_refuted : forall a b c out, is_scalar a || is_scalar b = false -> torch_mul a b = Ok c -> torch_mul_into a b out = Ok (c, out).
Proof. intros a b c out H1 H2. unfold torch_mul_into. rewrite H1, H2. reflexivity. Qed.
Print Assumptions torch_product_into_refuted.
(** When a factor is scalar then the right factor is not used: 2 times 3, with 5 in the destination, is 10. *)
Theorem scalar_product_into_refuted : (forall a b b' out, is_scalar a = true -> mul_into a b out = mul_into a b' out /\ torch_mul_into a b out = torch_mul_into a b' out) /\
  exists r c, mul_into (single (RtoC 2)) (single (RtoC 3)) (single (RtoC 5)) = Ok (r, r) /\ torch_mul_into (single (RtoC 2)) (single (RtoC 3)) (single (RtoC 5)) = Ok (r, r) /\
    mul (single (RtoC 2)) (single (RtoC 3)) = Ok c /\ aget r [0; 0]%nat = RtoC 10 /\ aget c [0; 0]%nat = RtoC 6.
Proof. split; [|exact into_other]. intros a b b' out H. unfold mul_into, torch_mul_into. rewrite H. split; reflexivity. Qed.
Print Assumptions scalar_product_into_refuted.

(** ** Roots and eigenvalues *)
(** The eigenvalues of Hermitian matrices are those of numpy. *)
Theorem torch_eigenvalues : forall (eps : R) (arr : list nat -> C), (0 < eps)%R -> (2 * eps <= 1)%R -> hermitian (fun i j => arr [i; j]) -> scaled eps (characteristic (fun i j => arr [i; j])) ->
  torch_mat3_eigh eps [3%nat; 3%nat] arr = mat3_eigh eps [3%nat; 3%nat] arr.
Proof. exact torch_eigh_same. Qed.
Print Assumptions torch_eigenvalues.
(** They are always within 2 sqrt eps of the eigenvalues. *)
Theorem torch_eigenvalues_error : forall (eps : R) (arr : list nat -> C), let A := fun i j => arr [i; j] in (0 < eps)%R -> (2 * eps <= 1)%R -> hermitian A ->
  exists roots exact, torch_mat3_eigh eps [3%nat; 3%nat] arr = Ok (map Some roots) /\ (forall x, det3 (minus_x A x) = - product_of exact x) /\ Forall (eigenvalue A) exact /\
    Forall2 (fun x y => (Cmod (x - y)%C <= 2 * sqrt eps)%R) roots exact.
Proof. exact torch_eigh_near. Qed.
Print Assumptions torch_eigenvalues_error.
(** The roots of a polynomial are those of numpy when they are real, as are the missing ones. *)
Theorem torch_roots_partial : forall eps l roots h, roots_of eps l = Ok (map Some roots ++ repeat None h) -> Forall (fun x => snd x = 0%R) roots ->
  torch_roots_of eps l = roots_of eps l.
Proof.
  intros eps l roots h E H. rewrite torch_roots_real, E. cbn [rmap]. f_equal. unfold real_parts. rewrite map_app. f_equal; [apply real_parts_real; exact H|].
  clear. induction h as [|h IH]; [reflexivity|]. cbn. rewrite IH. reflexivity.
Qed.
Print Assumptions torch_roots_partial.
(** Otherwise they are the real parts of the roots. *)
Theorem torch_roots_real_parts : forall eps l, torch_roots_of eps l = rmap (map (option_map (fun z => RtoC (fst z)))) (roots_of eps l).
Proof. exact torch_roots_real. Qed.
Print Assumptions torch_roots_real_parts.
(** x^2 + 1: no value is a root. *)
Theorem torch_roots_refuted : forall eps, (0 < eps)%R -> (eps < / 4)%R -> exists roots, torch_roots_of eps [RtoC 1; RtoC 0; RtoC 1] = Ok (map Some roots) /\
  roots <> [] /\ Forall (fun r => polynomial [RtoC 1; RtoC 0; RtoC 1] r <> 0) roots.
Proof. exact torch_imaginary. Qed.
Print Assumptions torch_roots_refuted.

(** ** The hypotheses can be met *)
(** A matrix that varies along one axis times a constant vector field. *)
Definition ramp : array := Arr [3; 3; 2; 1]%nat (fun p => RtoC (INR (nth 0 p 0%nat + 2 * nth 1 p 0%nat + nth 2 p 0%nat))).
Definition wave : array := Arr [3; 1; 2; 2]%nat (fun p => (INR (nth 0 p 0%nat), INR (nth 3 p 0%nat))).
Example product_case : (2 <= adim ramp)%nat /\ adim ramp = adim wave /\ nth 1 (ashape ramp) 0%nat = nth 0 (ashape wave) 0%nat /\
  is_scalar ramp || is_scalar wave = false /\ exists c, mul ramp wave = Ok c /\ ashape c = ashape wave.
Proof. split; [cbn; lia|]. split; [reflexivity|]. split; [reflexivity|]. split; [reflexivity|]. eexists. split; reflexivity. Qed.
(** A number assigned to the field. *)
Example assign_case : exists c, torch_assign_E true [2; 4]%nat (PyInt 3) (VNumber (RtoC 1)) = Ok c.
Proof. eexists. reflexivity. Qed.
