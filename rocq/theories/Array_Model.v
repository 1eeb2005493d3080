(** Model of the n-dimensional arrays behind tensor fields: python/macromax/backend/__init__.py lines 146-162 (assign), 204-216
    (eye), 321-385 (is_scalar, to_matrix_field), 387-444 (adjoint, subtract, mul), 462-470 (inv); backend/numpy.py lines 135-170
    (ldivide); and of the assignments to E and to the source in solver.py lines 702-720 and 823-832.
    Simplified: grids have at least one axis; exact numbers; the array functions of numpy are those of its documentation; torch is in Torch_Model. *)
From Coq Require Import Reals List Arith Bool ZArith.
Require Import Verif.Base Verif.Cplx Verif.CSum Verif.Solver_Model.
Import ListNotations.
Local Open Scope R_scope.
Local Open Scope C_scope.

(** ** numpy *)
(** An ndarray: its shape and its elements by index. *)
Record array : Type := Arr { ashape : list nat; aget : list nat -> C }.
Definition adim (a : array) : nat := length (ashape a).
(** A number is a zero-dimensional array. *)
Definition number (x : C) : array := Arr [] (fun _ => x).
(** A list of numbers. *)
Definition of_list (l : list C) : array := Arr [length l] (fun p => nth (nth 0 p 0%nat) l 0).

(** Broadcasting: singleton axes are added on the left and expanded. *)
Definition lpad (n : nat) (s : list nat) : list nat := repeat 1%nat (n - length s) ++ s.
Definition bdim (m n : nat) : option nat :=
  if (m =? n)%nat then Some m else if (m =? 1)%nat then Some n else if (n =? 1)%nat then Some m else None.
Fixpoint bzip (s t : list nat) : option (list nat) :=
  match s, t with
  | [], [] => Some []
  | m :: s', n :: t' => match bdim m n, bzip s' t' with Some d, Some r => Some (d :: r) | _, _ => None end
  | _, _ => None
  end.
Definition bshape (s t : list nat) : option (list nat) := let n := Nat.max (length s) (length t) in bzip (lpad n s) (lpad n t).
Fixpoint clip (s p : list nat) : list nat :=
  match s, p with n :: s', i :: p' => (if (n =? 1)%nat then 0%nat else i) :: clip s' p' | _, _ => [] end.
Definition bget (a : array) (p : list nat) : C := aget a (clip (ashape a) (skipn (length p - adim a) p)).
(** An elementwise operation of two arrays. *)
Definition abin (f : C -> C -> C) (a b : array) : result array :=
  match bshape (ashape a) (ashape b) with
  | Some s => Ok (Arr s (fun p => f (bget a p) (bget b p)))
  | None => Err ValueError
  end.
Definition amap (f : C -> C) (a : array) : array := Arr (ashape a) (fun p => f (aget a p)).

(** expand_dims(arr, 0), swapaxes(arr, 0, 1). *)
Definition expand0 (a : array) : array := Arr (1%nat :: ashape a) (fun p => aget a (tl p)).
Definition swap01 {A} (l : list A) : list A := match l with x :: y :: r => y :: x :: r | _ => l end.
Definition aswap (a : array) : array := Arr (swap01 (ashape a)) (fun p => aget a (swap01 p)).
(** tile(arr, reps), for as many repetitions as there are axes. *)
Fixpoint zip {A} (f : A -> A -> A) (s t : list A) : list A :=
  match s, t with x :: s', y :: t' => f x y :: zip f s' t' | _, _ => [] end.
Definition tile (a : array) (reps : list nat) : array :=
  Arr (zip Nat.mul (ashape a) reps) (fun p => aget a (zip (fun i n => i mod n)%nat p (ashape a))).
(** out[:] = arr for out of shape s: excess leading axes must be singletons, others equal or singletons. *)
Fixpoint fits_in (s t : list nat) : bool :=
  match s, t with
  | [], [] => true
  | m :: s', n :: t' => ((m =? n) || (m =? 1))%nat && fits_in s' t'
  | _, _ => false
  end.
Definition fill (s : list nat) (a : array) : result array :=
  let k := (adim a - length s)%nat in
  let b := Arr (skipn k (ashape a)) (fun p => aget a (repeat 0%nat k ++ p)) in
  if forallb (Nat.eqb 1) (firstn k (ashape a)) && fits_in (lpad (length s) (ashape b)) s then Ok (Arr s (bget b)) else Err ValueError.

(** ** BackEnd *)
(** is_scalar, lines 321-329. *)
Definition is_scalar (a : array) : bool :=
  match ashape a with
  | [] => true
  | [n] => (n =? 1)%nat
  | m :: n :: _ => ((m =? 1) && (n =? 1))%nat
  end.
(** to_matrix_field, backend/__init__.py lines 355-385, on a grid of nd dimensions. *)
Definition to_matrix_field (nd : nat) (a : array) : array :=
  let b := Nat.iter (nd + 2 - adim a) expand0 a in
  if ((nth 0 (ashape b) 0 =? 1) && (1 <? nth 1 (ashape b) 0))%nat then aswap b else b.
(** assign, backend/__init__.py lines 146-162, into an array of shape [out] on a grid of shape gs. *)
Definition assign (v : bool) (gs out : list nat) (a : array) : result array :=
  let nd := length gs in
  let b := to_matrix_field nd a in
  let n := adim b in
  let nv := if v then 3%nat else 1%nat in
  let other := if list_eq_dec Nat.eq_dec (skipn (n - nd) (ashape b)) gs then negb (nth (n - nd - 2) (ashape b) 0 =? nv)%nat else true in
  if other then
    if (n =? nd + 2)%nat then fill out (tile b (zip Nat.div (nv :: 1%nat :: gs) (ashape b))) else Err ValueError
  else fill out b.
(** eye, backend/__init__.py lines 204-216. *)
Definition identity (nv nd : nat) : array := Arr (nv :: nv :: repeat 1%nat nd) (fun p => eye (nth 0 p 0%nat) (nth 1 p 0%nat)).
(** adjoint, lines 387-395. *)
Definition adjoint (a : array) : array := amap Cconj (aswap a).
(** subtract, lines 397-413. *)
Definition subtract (nv nd : nat) (a b : array) : result array :=
  if is_scalar a && is_scalar b then abin Cminus a b
  else
    bind (if is_scalar a then abin Cmult (identity nv nd) (to_matrix_field nd a) else Ok a) (fun a' =>
    bind (if is_scalar b then abin Cmult (identity nv nd) (to_matrix_field nd b) else Ok b) (fun b' =>
    abin Cminus a' b')).
(** einsum('ij...,jk...->ik...') of factors with the same number of axes. *)
Definition einsum (a b : array) : result array :=
  match ashape a, ashape b with
  | m :: j :: s, j' :: n :: t =>
      match bdim j j', bzip s t with
      | Some d, Some r =>
          Ok (Arr (m :: n :: r) (fun p => match p with i :: k :: q => csum d (fun l => bget a (i :: l :: q) * bget b (l :: k :: q)) | _ => 0 end))
      | _, _ => Err ValueError
      end
  | _, _ => Err ValueError
  end.
(** mul, backend/__init__.py lines 415-444, without out.  Matrix factors with different numbers of axes are not modelled (ValueError here). *)
Definition mul (a b : array) : result array :=
  if is_scalar a || is_scalar b then abin Cmult a b else einsum a b.
(** ldivide of backend/numpy.py lines 135-170, for square denominators of 3 rows; with matrices in the first two axes, or the last two
    axes as numpy.linalg needs them. *)
Definition matrices_last (a : array) : array :=
  Arr (skipn 2 (ashape a) ++ firstn 2 (ashape a)) (fun p => let n := (length p - 2)%nat in aget a (skipn n p ++ firstn n p)).
Definition matrices_first (a : array) : array :=
  let n := (adim a - 2)%nat in
  Arr (skipn n (ashape a) ++ firstn n (ashape a)) (fun p => aget a (skipn 2 p ++ firstn 2 p)).
Definition linalg_inv (a : array) : array :=
  Arr (ashape a) (fun p => let n := (length p - 2)%nat in
    inv3 (fun i j => aget a (firstn n p ++ [i; j])) (nth n p 0%nat) (nth (n + 1) p 0%nat)).
Definition linalg_solve (a b : array) : result array :=
  let n := (adim a - 2)%nat in
  match bshape (firstn n (ashape a)) (firstn n (ashape b)) with
  | Some r => Ok (Arr (r ++ [3%nat; nth (n + 1) (ashape b) 0%nat]) (fun p =>
      csum 3 (fun l => bget (linalg_inv a) (firstn n p ++ [nth n p 0%nat; l]) * bget b (firstn n p ++ [l; nth (n + 1) p 0%nat]))))
  | None => Err ValueError
  end.
Definition ldivide (nd : nat) (denominator numerator : array) : result array :=
  let d := to_matrix_field nd denominator in
  let u := to_matrix_field nd numerator in
  if is_scalar d then abin Cdiv u d
  else rmap matrices_first (if is_scalar u then abin Cmult (linalg_inv (matrices_last d)) u
                            else linalg_solve (matrices_last d) (matrices_last u)).
(** inv, lines 462-471. *)
Definition inverse (nd : nat) (a : array) : result array := ldivide nd a (number 1).

(** ** Assignments to a Solution *)
(** A Python number, or one of numpy. *)
Inductive pynumber : Type := PyInt (z : Z) | PyFloat (r : R) | NpFloat (r : R).
(** What can be assigned: a number, a list of numbers or an array. *)
Inductive pyvalue : Type := VNumber (x : C) | VList (l : list C) | VArray (a : array).
Definition asarray (v : pyvalue) : array := match v with VNumber x => number x | VList l => of_list l | VArray a => a end.
(** value * wavenumber ** 2, as in the setter of E, solver.py line 831: a list times an int is that many copies of it. *)
Definition times_square (v : pyvalue) (k : pynumber) : result pyvalue :=
  match k, v with
  | PyInt z, VNumber x => Ok (VNumber (x * RtoC (IZR (z * z))))
  | PyInt z, VArray a => Ok (VArray (amap (fun x => x * RtoC (IZR (z * z))) a))
  | PyInt z, VList l => Ok (VList (concat (repeat l (Z.to_nat (z * z)))))
  | PyFloat r, VNumber x => Ok (VNumber (x * RtoC (r * r)))
  | PyFloat r, VArray a => Ok (VArray (amap (fun x => x * RtoC (r * r)) a))
  | PyFloat _, VList _ => Err TypeError
  | NpFloat r, _ => Ok (VArray (amap (fun x => x * RtoC (r * r)) (asarray v)))
  end.
(** The shape of the field array, solver.py line 215. *)
Definition field_shape (v : bool) (gs : list nat) : list nat := (if v then 3 else 1)%nat :: 1%nat :: gs.
(** The E setter, solver.py lines 823-832: the new self.__field_array. *)
Definition assign_E (v : bool) (gs : list nat) (k : pynumber) (E : pyvalue) : result array :=
  bind (times_square E k) (fun x => assign v gs (field_shape v gs) (asarray x)).
(** The E getter, lines 810-818. *)
Definition get_E (k : pynumber) (f : array) : array :=
  let k2 := match k with PyInt z => IZR (z * z) | PyFloat r | NpFloat r => (r * r)%R end in
  Arr (match ashape f with m :: _ :: s => m :: s | s => s end)
      (fun p => match p with c :: q => aget f (c :: 0%nat :: q) / RtoC k2 | [] => 0 end).
(** The source_distribution getter and setter, solver.py lines 690-720: self.__source_normalized for the preconditioner alpha and beta. *)
Definition get_source (alpha_im beta : R) (f : array) : array :=
  Arr (match ashape f with m :: _ :: s => m :: s | s => s end)
      (fun p => match p with c :: q => aget f (c :: 0%nat :: q) * (RtoC beta / Ci * RtoC alpha_im) | [] => 0 end).
Definition assign_source (v : bool) (gs : list nat) (alpha_im beta : R) (old : option array) (s : pyvalue) : result array :=
  let nd := length gs in
  let b := to_matrix_field nd (asarray s) in
  let factor := Ci / RtoC alpha_im / RtoC beta in
  match old with
  | None => mul b (number factor)
  | Some o => assign v gs (ashape o) (amap (fun x => x * factor) b)
  end.
