(** Model of the construction of matrices, and of assignments to their elements: python/macromax/matrix.py lines 100-226 (Matrix) and
    229-255 (SquareMatrix).  scipy's LinearOperator checks that a shape consists of two numbers, that a vector has as many elements as the
    matrix has columns, and gives the product as many elements as the matrix has rows.
    Simplified: numbers are exact and finite, and fit the types of numpy; indices are not negative; arrays have two axes. *)
From Coq Require Import Reals List Arith ZArith Bool.
Require Import Verif.Base Verif.Cplx Verif.CSum.
Import ListNotations.
Local Open Scope R_scope.

(** Numpy's types, an array of two axes, and nested sequences of as many rows with as many numbers. *)
Inductive kind : Type := Ints | Reals | Complexes.
Record table : Type := { t_kind : kind; t_rows : nat; t_cols : nat; t_at : nat -> nat -> C }.

(** The argument array: a numpy array, nested lists, a function or method, or None. *)
Inductive given : Type := GivenArray (t : table) | GivenLists (t : table) | GivenFunction | GivenNone.
(** What is kept in self.__array: the array of the caller itself, an own array, the lists, the function, or None. *)
Inductive held : Type := Shared (t : table) | Own (t : table) | Lists (t : table) | Function | Nothing.
Record mat : Type := { m_rows : nat; m_cols : nat; m_held : held }.

(** [Matrix.__init__], lines 103-116. *)
Definition matrix_of (x : given) (shape : option (nat * nat)) : result mat :=
  let keep := match x with
              | GivenArray t => Shared t
              | GivenLists t => Lists t
              | GivenFunction => Function
              | GivenNone => Nothing
              end in
  match shape with
  | Some (r, c) => Ok {| m_rows := r; m_cols := c; m_held := keep |}
  | None =>
      match x with
      | GivenNone => Err TypeError                                           (* tuple(None) *)
      | GivenArray t | GivenLists t => Ok {| m_rows := t_rows t; m_cols := t_cols t; m_held := keep |}
      | GivenFunction => Err ValueError                                      (* not two numbers *)
      end
  end.
(** [SquareMatrix.__init__], lines 231-247. *)
Definition square_of (x : given) (side : option nat) : result mat :=
  let make n h := Ok {| m_rows := n; m_cols := n; m_held := h |} in
  match x with
  | GivenNone => match side with Some n => make n Nothing | None => Err ValueError end
  | GivenArray t =>
      let n := match side with Some n => n | None => t_rows t end in
      if Nat.eqb (t_cols t) n then make n (Shared t) else Err ValueError
  | GivenLists t =>
      let n := match side with Some n => n | None => t_rows t end in
      if Nat.eqb (t_cols t) n then make n (Own t) else Err ValueError
  | GivenFunction => match side with Some _ => Err ValueError | None => Err IndexError end      (* an array without axes *)
  end.

(** The numbers in a matrix. *)
Definition content (m : mat) : option table :=
  match m_held m with Shared t | Own t | Lists t => Some t | Function | Nothing => None end.
(** The product with a vector of [n] numbers: the checks of LinearOperator and [_matvec], lines 195-206. *)
Definition product (m : mat) (n : nat) (v : nat -> C) : result (nat -> C) :=
  if Nat.eqb n (m_cols m) then
    match content m with
    | Some t =>
        if Nat.eqb (t_cols t) n then
          if Nat.eqb (t_rows t) (m_rows m) then Ok (fun i => csum n (fun j => t_at t i j * v j)%C)
          else Err ValueError
        else Err ValueError
    | None => Err ValueError
    end
  else Err ValueError.

(** np.asarray(matrix)[i, j], lines 162-174; a function makes an array without axes. *)
Definition array_element (m : mat) (i j : nat) : result C :=
  match content m with
  | Some t => if (Nat.ltb i (t_rows t) && Nat.ltb j (t_cols t))%bool then Ok (t_at t i j) else Err IndexError
  | None => match m_held m with Function => Err IndexError | _ => Err ValueError end
  end.
(** matrix[i, j], lines 121-151: the product with a column of the unit matrix. *)
Definition unit_column (j : nat) (k : nat) : C := RtoC (if Nat.eqb k j then 1 else 0).
Definition element (m : mat) (i j : nat) : result C :=
  if Nat.ltb j (m_rows m) then
    do c <- product m (m_rows m) (unit_column j);
    if Nat.ltb i (m_rows m) then Ok (c i) else Err IndexError
  else Err IndexError.

(** A value to assign: from Python or from numpy; an integer, a real, or a complex number. *)
Inductive source : Type := FromPython | FromNumpy.
Record value : Type := { v_source : source; v_kind : kind; v_number : C }.
(** Towards zero. *)
Definition truncated (x : R) : R := if Rle_dec 0 x then IZR (Int_part x) else (- IZR (Int_part (- x)))%R.
(** How numpy (since version 1.20) stores a number in an array of a given type. *)
Definition stored (k : kind) (v : value) : result C :=
  match k, v_kind v, v_source v with
  | Complexes, _, _ => Ok (v_number v)
  | _, Complexes, FromPython => Err TypeError
  | Reals, _, _ => Ok (RtoC (fst (v_number v)))
  | Ints, Ints, _ => Ok (RtoC (fst (v_number v)))
  | Ints, _, _ => Ok (RtoC (truncated (fst (v_number v))))
  end.
Definition put (t : table) (i j : nat) (x : C) : table :=
  {| t_kind := t_kind t; t_rows := t_rows t; t_cols := t_cols t;
     t_at := fun a b => if (Nat.eqb a i && Nat.eqb b j)%bool then x else t_at t a b |}.
(** An assignment to element [i, j] of a numpy array. *)
Definition put_array (t : table) (i j : nat) (v : value) : result table :=
  if (Nat.ltb i (t_rows t) && Nat.ltb j (t_cols t))%bool then do x <- stored (t_kind t) v; Ok (put t i j x) else Err IndexError.
(** matrix[i, j] = v, lines 153-160: lists cannot be indexed with tuples, and None and functions not at all. *)
Definition assign (m : mat) (i j : nat) (v : value) : result mat :=
  let with_held h := {| m_rows := m_rows m; m_cols := m_cols m; m_held := h |} in
  match m_held m with
  | Shared t => do t <- put_array t i j v; Ok (with_held (Shared t))
  | Own t => do t <- put_array t i j v; Ok (with_held (Own t))
  | Lists _ => Err TypeError
  | Function | Nothing => Err AttributeError
  end.
(** The caller's array that was given changes: array[i, j] = v. *)
Definition caller_assigns (m : mat) (i j : nat) (v : value) : result mat :=
  match m_held m with
  | Shared t => do t <- put_array t i j v; Ok {| m_rows := m_rows m; m_cols := m_cols m; m_held := Shared t |}
  | _ => Ok m
  end.
(** A history of assignments. *)
Record assignment : Type := { a_row : nat; a_col : nat; a_value : value }.
Fixpoint assigns (m : mat) (l : list assignment) : result mat :=
  match l with [] => Ok m | a :: l => do m <- assign m (a_row a) (a_col a) (a_value a); assigns m l end.
