(** Model of python/macromax/utils/dim.py.

    An ndarray is its shape and its elements in row-major (C) order; a view returned by these functions
    shares its elements with its argument, which is modelled by carrying the same element list. *)
From Verif Require Import Base.
Local Open Scope Z_scope.

Record ndarray (A : Type) : Type := { shape : list nat; elements : list A }.
Arguments shape {A} _.
Arguments elements {A} _.
Arguments Build_ndarray {A} _ _.

(** Number of axes, [arr.ndim]. *)
Definition ndim {A} (arr : ndarray A) : Z := Z.of_nat (length (shape arr)).

(** [arr.reshape(new_shape)]: the elements are kept, numpy raises ValueError unless the total size matches. *)
Definition reshape {A} (arr : ndarray A) (s : list nat) : result (ndarray A) :=
  if (prodn s =? prodn (shape arr))%nat then Ok (Build_ndarray s (elements arr)) else Err ValueError.

(** [np.expand_dims(arr, tuple(range(n)))]  (dim.py line 40) *)
Definition expand_left {A} (arr : ndarray A) (n : nat) : ndarray A :=
  Build_ndarray (repeat 1%nat n ++ shape arr) (elements arr).

(** [np.expand_dims(arr, tuple(range(-n, 0)))]  (dim.py line 46) *)
Definition expand_right {A} (arr : ndarray A) (n : nat) : ndarray A :=
  Build_ndarray (shape arr ++ repeat 1%nat n) (elements arr).

(** Work out left and right padding from the total: dim.py lines 28-36. *)
Definition pad_args {A} (arr : ndarray A) (left right nd : option Z) : option Z * option Z :=
  match nd with
  | None => (left, right)
  | Some n =>
      match right with
      | None =>
          (left, Some (match left with None => n - ndim arr | Some l => n - ndim arr - l end))
      | Some r =>
          match left with
          | None => (Some (n - ndim arr - r), right)
          | Some _ => (left, right)
          end
      end
  end.

(** dim.py lines 37-42.  [arr.shape[-left:]] for negative left drops the first |left| entries. *)
Definition pad_left {A} (arr : ndarray A) (left : option Z) : result (ndarray A) :=
  match left with
  | None => Ok arr
  | Some l =>
      if 0 <? l then Ok (expand_left arr (Z.to_nat l))
      else if l <? 0 then reshape arr (skipn (Z.to_nat (- l)) (shape arr))
      else Ok arr
  end.

(** dim.py lines 43-48.  [arr.shape[:-right]] for negative right KEEPS the first |right| entries. *)
Definition pad_right {A} (arr : ndarray A) (right : option Z) : result (ndarray A) :=
  match right with
  | None => Ok arr
  | Some r =>
      if 0 <? r then Ok (expand_right arr (Z.to_nat r))
      else if r <? 0 then reshape arr (firstn (Z.to_nat (- r)) (shape arr))
      else Ok arr
  end.

(** [dim.add(arr, left, right, ndim)]: dim.py lines 8-50. *)
Definition add {A} (arr : ndarray A) (left right nd : option Z) : result (ndarray A) :=
  let '(l, r) := pad_args arr left right nd in
  do a <- pad_left arr l;
  pad_right a r.

(** [dim.right_to(arr, ndim)]: dim.py lines 53-64. *)
Definition right_to {A} (arr : ndarray A) (nd : Z) : result (ndarray A) := add arr None None (Some nd).

(** [dim.left_to(arr, ndim)]: dim.py lines 67-77. *)
Definition left_to {A} (arr : ndarray A) (nd : Z) : result (ndarray A) := add arr None (Some 0) (Some nd).

(** [dim.to_axis(arr, axis, ndim)]: dim.py lines 80-97.  Python's [%] on integers is Coq's [mod]; a zero
    divisor raises ZeroDivisionError. *)
Definition to_axis {A} (arr : ndarray A) (axis : Z) (nd : option Z) : result (ndarray A) :=
  let nd := match nd with None => ndim arr + Z.max axis (- axis - 1) | Some n => n end in
  if nd =? 0 then Err ZeroDivisionError
  else add arr (Some (axis mod nd)) None (Some nd).
