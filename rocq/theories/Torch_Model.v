(** Model of the array functions of the torch back-end, python/macromax/backend/torch.py: assign (lines 104-113), sort (179-181), mul
    (220-249), and of mul with a destination array in both back-ends (backend/__init__.py lines 415-444).
    The functions to_matrix_field, is_scalar, subtract, inv and calc_roots_of_low_order_polynomial are inherited (Array_Model,
    Roots_Model); adjoint, swapaxes and expand_dims (lines 152-159, 207-215) do what those of numpy do, and ldivide (lines 251-289) copies its arguments to numpy
    and does what that of backend/numpy.py does.
    Simplified: exact numbers; the functions of torch are those of its documentation; devices and data types are left out. *)
From Coq Require Import Reals List Arith Bool.
Require Import Verif.Base Verif.Cplx Verif.CSum Verif.Num Verif.Display_Model Verif.Modes_Model Verif.Array_Model Verif.Roots_Model.
Import ListNotations.
Local Open Scope R_scope.
Local Open Scope C_scope.

(** ** Products *)
(** x @ y for the real numbers f of x and g of y: matrices in the last two axes, the others are broadcast. The inner sizes must be
    equal. Arrays with fewer than two axes are not modelled (ValueError here). *)
Definition matmul (f g : C -> R) (x y : array) : result array :=
  let nx := (adim x - 2)%nat in
  let ny := (adim y - 2)%nat in
  match skipn nx (ashape x), skipn ny (ashape y), bshape (firstn nx (ashape x)) (firstn ny (ashape y)) with
  | [m; j], [j'; n], Some r =>
      if (j =? j')%nat then
        Ok (Arr (r ++ [m; n]) (fun p =>
              let q := firstn (length r) p in
              RtoC (rsum j (fun l => f (bget x (q ++ [nth (length r) p 0%nat; l])) * g (bget y (q ++ [l; nth (length r + 1) p 0%nat])))%R)))
      else Err ValueError
  | _, _, _ => Err ValueError
  end.
(** mul, lines 220-249, without out. *)
Definition torch_mul (a b : array) : result array :=
  if is_scalar a || is_scalar b then abin Cmult a b
  else
    let x := matrices_last a in
    let y := matrices_last b in
    bind (matmul fst fst x y) (fun rr =>
    bind (matmul snd snd x y) (fun ii =>
    bind (abin Cminus rr ii) (fun r1 =>
    bind (matmul fst snd x y) (fun ri =>
    bind (abin Cplus r1 (amap (Cmult Ci) ri)) (fun r2 =>
    bind (matmul snd fst x y) (fun ir =>
    bind (abin Cplus r2 (amap (Cmult Ci) ir)) (fun r =>
    Ok (matrices_first r)))))))).
(** out *= left_factor: the shape of out does not change. *)
Definition in_place (a out : array) : result array :=
  bind (abin Cmult out a) (fun r => if list_eq_dec Nat.eq_dec (ashape r) (ashape out) then Ok r else Err ValueError).
(** mul with out, backend/__init__.py lines 430-444: the result, and the destination array afterwards. *)
Definition mul_into (a b out : array) : result (array * array) :=
  if is_scalar a || is_scalar b then rmap (fun r => (r, r)) (in_place a out)
  else bind (einsum a b) (fun r => if list_eq_dec Nat.eq_dec (ashape r) (ashape out) then Ok (r, r) else Err ValueError).
(** The same, backend/torch.py lines 220-249. *)
Definition torch_mul_into (a b out : array) : result (array * array) :=
  if is_scalar a || is_scalar b then rmap (fun r => (r, r)) (in_place a out)
  else rmap (fun r => (r, out)) (torch_mul a b).

(** ** Assignments *)
(** assign, lines 104-113, into an array of shape out on a grid of shape gs; repeat is tile, and needs as many axes. *)
Definition torch_assign (gs out : list nat) (a : array) : result array :=
  let nd := length gs in
  let b := to_matrix_field nd a in
  if list_eq_dec Nat.eq_dec (skipn (adim b - nd) (ashape b)) gs then fill out b
  else if (length out =? adim b)%nat then fill out (tile b (zip Nat.div out (ashape b)))
  else Err ValueError.
(** The E setter of solver.py, lines 823-832, with this back-end. *)
Definition torch_assign_E (v : bool) (gs : list nat) (k : pynumber) (E : pyvalue) : result array :=
  bind (times_square E k) (fun x => torch_assign gs (field_shape v gs) (asarray x)).
(** The source_distribution setter of solver.py, lines 702-720, with this back-end. *)
Definition torch_assign_source (gs : list nat) (alpha_im beta : R) (old : option array) (s : pyvalue) : result array :=
  let b := to_matrix_field (length gs) (asarray s) in
  let factor := Ci / RtoC alpha_im / RtoC beta in
  match old with
  | None => torch_mul b (number factor)
  | Some o => torch_assign gs (ashape o) (amap (fun x => x * factor) b)
  end.

(** ** Roots *)
(** torch.sort of real numbers. *)
Fixpoint rinsert (x : R) (l : list R) : list R :=
  match l with [] => [x] | y :: l' => if Rleb x y then x :: l else y :: rinsert x l' end.
Definition rsort (l : list R) : list R := fold_right rinsert [] l.
(** sort, lines 179-181: the real and imaginary parts are sorted separately, and the real parts are returned; nan last. *)
Definition torch_sort (l : list (option C)) : list (option C) :=
  map (fun x => Some (RtoC x)) (rsort (map fst (values l))) ++ repeat None (length l - length (values l)).
(** calc_roots_of_low_order_polynomial, backend/__init__.py lines 725-850, with this sort in line 792. *)
Definition torch_roots_of (eps : R) (l : list C) : result (list (option C)) :=
  let '(l', k) := add_roots eps l in
  let sorted X := torch_sort (fst (remove_zeros eps X k)) in
  match l' with
  | [] | [_] => Ok []
  | [c0; c1] => Ok (sorted (linear c0 c1))
  | [c0; c1; c2] => Ok (sorted (quadratic eps c0 c1 c2))
  | [c0; c1; c2; c3] => Ok (sorted (cubic eps c0 c1 c2 c3))
  | _ => Err OtherException
  end.
(** mat3_eigh, backend/__init__.py lines 670-723, with these roots. *)
Definition torch_mat3_eigh (eps : R) (lead : list nat) (arr : list nat -> C) : result (list (option C)) :=
  match lead with
  | [m; n] =>
      if (m =? 3)%nat && (n =? 3)%nat then torch_roots_of eps (characteristic (fun i j => arr [i; j]))
      else mat3_eigh eps lead arr
  | _ => mat3_eigh eps lead arr
  end.
