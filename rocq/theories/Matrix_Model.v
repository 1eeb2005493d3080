(** Model of the matrices of python/macromax/matrix.py: lines 24-97 (CachingMatrix), 100-226 (Matrix), 248 (LiteralScatteringMatrix),
    848-917 (quarters), 920-989 (DepositionMatrix).
    Simplified: exact complex numbers; vectors are functions of the index, of which the first elements count; the product of
    scipy's LinearOperator calls _matvec for vectors and for each column of a matrix, after checking the number of rows. *)
From Coq Require Import Reals List Arith Bool ZArith.
Require Import Verif.Base Verif.Cplx Verif.CSum.
Import ListNotations.
Local Open Scope R_scope.
Local Open Scope C_scope.

Definition vec : Type := nat -> C.
Definition zero_vec : vec := fun _ => 0.
Definition basis (j : nat) : vec := fun i => if (i =? j)%nat then 1 else 0.

(** ** Matrix *)
(** What a Matrix is made of, lines 103-119: an array, the _matvec of a subclass, or nothing. *)
Inductive contents : Type := Array (a : nat -> nat -> C) | Operator (f : vec -> result vec) | NoArray.
Record matrix : Type := { mrows : nat; mcols : nat; mcontents : contents }.
(** _matvec, lines 195-206; without an array, None @ right: numpy takes None for an array without axes, for which there is no product. *)
Definition matvec (M : matrix) (v : vec) : result vec :=
  match mcontents M with
  | Array a => Ok (fun i => csum (mcols M) (fun j => a i j * v j))
  | Operator f => f v
  | NoArray => Err ValueError
  end.
(** The products of the columns of a matrix. *)
Fixpoint matmat (M : matrix) (columns : list vec) : result (list vec) :=
  match columns with
  | [] => Ok []
  | v :: l => do x <- matvec M v; do r <- matmat M l; Ok (x :: r)
  end.
(** __array__, lines 162-174. *)
Definition to_array (M : matrix) : result (nat -> nat -> C) :=
  match mcontents M with
  | Array a => Ok a
  | _ => rmap (fun cols i j => nth j cols zero_vec i) (matmat M (map basis (seq 0 (mcols M))))
  end.
(** _adjoint, lines 208-210. *)
Definition adjoint_array (M : matrix) : result (nat -> nat -> C) := rmap (fun a i j => Cconj (a j i)) (to_array M).

(** An integer, all of an axis, or a list of integers as index. *)
Inductive selector : Type := SInt (z : Z) | SAll | SList (l : list Z).
(** The position that an integer stands for. *)
Definition position (n : nat) (z : Z) : result nat :=
  let i := if (z <? 0)%Z then (z + Z.of_nat n)%Z else z in
  if ((0 <=? i) && (i <? Z.of_nat n))%Z then Ok (Z.to_nat i) else Err IndexError.
Fixpoint positions (n : nat) (l : list Z) : result (list nat) :=
  match l with [] => Ok [] | z :: l' => do i <- position n z; do r <- positions n l'; Ok (i :: r) end.
Definition select (n : nat) (s : selector) : result (list nat) :=
  match s with SInt z => rmap (fun i => [i]) (position n z) | SAll => Ok (seq 0 n) | SList l => positions n l end.
(** The product with a matrix, by scipy's _matmat: numpy.hstack of no columns raises a ValueError. *)
Definition product (M : matrix) (columns : list vec) : result (list vec) :=
  match columns with [] => Err ValueError | _ => matmat M columns end.
(** __getitem__, lines 121-151, for a row and a column index, as the list of the selected rows. *)
Definition getitem (M : matrix) (row col : selector) : result (list (list C)) :=
  do js <- select (mrows M) col;
  if (mrows M =? mcols M)%nat then
    do cols <- product M (map basis js);
    do is <- select (mrows M) row;
    Ok (map (fun i => map (fun c : vec => c i) cols) is)
  else Err ValueError.

(** ** numpy functions of matrices *)
(** An operand of a ufunc: a Matrix or something else. *)
Inductive operand : Type := OMatrix (M : matrix) | OArray (a : nat -> nat -> C).
(** What numpy does when a ufunc is called: the first Matrix among the arguments is asked (numpy's dispatch of __array_ufunc__); its
    method, lines 176-178, calls the ufunc with its own array instead of the first argument. *)
Fixpoint first_matrix (args : list operand) : option matrix :=
  match args with [] => None | OMatrix M :: _ => Some M | OArray _ :: r => first_matrix r end.
Definition is_arr (o : operand) : bool := match o with OArray _ => true | OMatrix _ => false end.
Definition arr (o : operand) : nat -> nat -> C := match o with OArray a => a | OMatrix _ => fun _ _ => 0 end.
(** The result, or None if the depth is used up. *)
Fixpoint call_ufunc {A} (depth : nat) (f : list (nat -> nat -> C) -> A) (args : list operand) : option (result A) :=
  match depth with
  | O => None
  | S d =>
      match first_matrix args with
      | None => Some (Ok (f (map arr args)))
      | Some M => match to_array M with Ok a => call_ufunc d f (OArray a :: tl args) | Err e => Some (Err e) end
      end
  end.

(** ** Quarters *)
(** QuarterMatrix, lines 850-882. *)
Definition quarter (M : matrix) (backwards_output backwards_input : bool) : result matrix :=
  if Nat.odd (mrows M) then Err TypeError
  else
    let h := (mrows M / 2)%nat in
    Ok {| mrows := h; mcols := h; mcontents := Operator (fun v =>
      let x : vec := fun i => if backwards_input then (if (i <? h)%nat then 0 else v (i - h)%nat) else (if (i <? h)%nat then v i else 0) in
      rmap (fun y : vec => if backwards_output then (fun i => y (i + h)%nat) else y) (matvec M x)) |}.
(** Lines 885-917 and the properties of LiteralScatteringMatrix, lines 315-353. *)
Definition forward_transmission (M : matrix) := quarter M false false.
Definition front_reflection (M : matrix) := quarter M true false.
Definition back_reflection (M : matrix) := quarter M false true.
Definition backward_transmission (M : matrix) := quarter M true true.

(** ** CachingMatrix *)
Definition Ceqb (x y : C) : bool := if Req_EM_T (fst x) (fst y) then (if Req_EM_T (snd x) (snd y) then true else false) else false.
Definition non_zeros (n : nat) (v : vec) : list nat := filter (fun i => negb (Ceqb (v i) 0)) (seq 0 n).
(** The cached columns, and the arguments for which the value function has been called, last first. *)
Record cache_state : Type := { ccaching : bool; ccolumns : list (nat * vec); ccalls : list vec }.
Fixpoint lookup (b : nat) (l : list (nat * vec)) : option vec :=
  match l with [] => None | (k, v) :: r => if (k =? b)%nat then Some v else lookup b r end.
Definition call (f : vec -> vec) (s : cache_state) (v : vec) : vec * cache_state :=
  (f v, {| ccaching := ccaching s; ccolumns := ccolumns s; ccalls := v :: ccalls s |}).
Definition store (b : nat) (c : vec) (s : cache_state) : cache_state :=
  {| ccaching := ccaching s; ccolumns := (b, c) :: ccolumns s; ccalls := ccalls s |}.
(** One column in the loop of _cache, lines 67-86; has_out: whether there is an array for the results already.  Columns of zeros are
    filled in afterwards. *)
Definition cache_column (f : vec -> vec) (n : nat) (s : cache_state) (has_out : bool) (v : vec) : result (vec * bool * cache_state) :=
  match non_zeros n v with
  | [] => Ok (zero_vec, has_out, s)
  | b :: more =>
      let basis_index := match more with [] => if ccaching s then Some b else None | _ => None end in
      match basis_index with
      | Some b =>
          match lookup b (ccolumns s) with
          | Some c => if has_out then Ok ((fun i => c i * v b), true, s) else Err TypeError
          | None => let (r, s') := call f s v in Ok (r, true, store b (fun i => r i / v b) s')
          end
      | None => let (r, s') := call f s v in Ok (r, true, s')
      end
  end.
Fixpoint cache_columns (f : vec -> vec) (n : nat) (s : cache_state) (has_out : bool) (rhs : list vec) : result (list vec * bool * cache_state) :=
  match rhs with
  | [] => Ok ([], has_out, s)
  | v :: l =>
      do a <- cache_column f n s has_out v;
      let '(r, o, s') := a in
      do b <- cache_columns f n s' o l;
      let '(rs, o', s'') := b in Ok (r :: rs, o', s'')
  end.
(** _cache, lines 49-97, for the columns of the right-hand side; has_out: whether the argument out is given. *)
Definition cached (f : vec -> vec) (n : nat) (has_out : bool) (s : cache_state) (rhs : list vec) : result (list vec * cache_state) :=
  do a <- cache_columns f n s has_out rhs;
  let '(rs, o, s') := a in
  if o then Ok (rs, s')
  else
    match ccolumns s', rhs with
    | _ :: _, _ => Err TypeError
    | [], [] => Err IndexError
    | [], v :: _ => let (_, s'') := call f s' v in Ok (rs, s'')
    end.
(** The caching property and its setter, lines 36-47. *)
Definition set_caching (b : bool) (s : cache_state) : cache_state := {| ccaching := b; ccolumns := ccolumns s; ccalls := ccalls s |}.
Definition new_cache (b : bool) : cache_state := {| ccaching := b; ccolumns := []; ccalls := [] |}.

(** ** DepositionMatrix *)
(** What the local variable output_operator refers to, lines 947-965: the argument, the lambda of line 955, or a LinearOperator around
    either.  The lambda looks the variable up when it is called. *)
Inductive closure : Type := CUser (f : vec -> vec) | CLambda | CLinear (c : closure).
Fixpoint run_closure (depth : nat) (variable : closure) (c : closure) (v : vec) : option vec :=
  match depth with
  | O => None
  | S d =>
      match c with
      | CUser f => Some (f v)
      | CLambda => run_closure d variable variable v
      | CLinear c' => run_closure d variable c' v
      end
  end.
(** The operator that is stored for a function whose results have this number of axes. *)
Definition output_operator (f : vec -> vec) (axes : nat) : closure := CLinear (if (1 <? axes)%nat then CLambda else CUser f).
Definition apply_output (depth : nat) (f : vec -> vec) (axes : nat) (v : vec) : option vec :=
  let op := output_operator f axes in run_closure depth op op v.
