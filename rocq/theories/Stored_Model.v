(** Model of a ScatteringMatrix as an object with a Solution and a cache: python/macromax/matrix.py lines 448-494 (the array argument
    of the constructor), 770-820 (_matvec), and 831-844 (__array__).
    Simplified: exact numbers; the Solution is that of Run_Model; vectors have the right length (Matrix_Model checks it) and are functions
    that are zero beyond it; given arrays have at most two axes. *)
From Coq Require Import Reals List Arith ZArith Bool.
Require Import Verif.Base Verif.Cplx Verif.CSum Verif.Field Verif.Fourier_Model Verif.Vec_Model Verif.Solver_Model Verif.Derived_Model Verif.Run_Model.
Require Import Verif.Matrix_Model Verif.Modes_Model Verif.Modes_Spec Verif.Scatter_Model.
Import ListNotations.
Local Open Scope R_scope.
Local Open Scope C_scope.

(** The attributes __caching, __cached_columns and __solution. *)
Record smatrix : Type := { sm_caching : bool; sm_columns : list (nat * vec); sm_solution : solution }.
(** The caching setter, lines 515-517. *)
Definition switch_caching (b : bool) (s : smatrix) : smatrix := {| sm_caching := b; sm_columns := sm_columns s; sm_solution := sm_solution s |}.
Definition with_solution (s : smatrix) (x : solution) : smatrix := {| sm_caching := sm_caching s; sm_columns := sm_columns s; sm_solution := x |}.
(** self.__cached_columns[b] = c, line 814. *)
Definition keep_column (b : nat) (c : vec) (s : smatrix) : smatrix :=
  {| sm_caching := sm_caching s; sm_columns := (b, c) :: sm_columns s; sm_solution := sm_solution s |}.

(** ** Products *)
(** One column of _matvec, lines 789-820. *)
Definition product_column (fuel : nat) (maxiter : option Z) (rtol : R) (d : device) (s : smatrix) (v : vec) : option (result vec * smatrix) :=
  match non_zeros (n_elements (optics_of d)) v with
  | [] => Some (Ok zero_vec, s)
  | b :: more =>
      let basis_index := match more with [] => if sm_caching s then Some b else None | _ => None end in
      match match basis_index with Some b => lookup b (sm_columns s) | None => None end with
      | Some c => Some (Ok (fun i => c i * v b), s)
      | None =>
          match column fuel maxiter rtol d (sm_solution s) v with
          | None => None
          | Some (Err e, x) => Some (Err e, with_solution s x)
          | Some (Ok r, x) =>
              let s' := with_solution s x in
              Some (Ok r, match basis_index with Some b => keep_column b (fun i => r i / v b) s' | None => s' end)
          end
      end
  end.
(** The loop over the columns of the right-hand side, line 789. *)
Fixpoint products (fuel : nat) (maxiter : option Z) (rtol : R) (d : device) (s : smatrix) (vs : list vec) : option (result (list vec) * smatrix) :=
  match vs with
  | [] => Some (Ok [], s)
  | v :: vs' =>
      match product_column fuel maxiter rtol d s v with
      | None => None
      | Some (Err e, s') => Some (Err e, s')
      | Some (Ok u, s') =>
          match products fuel maxiter rtol d s' vs' with
          | None => None
          | Some (r, s'') => Some (rmap (cons u) r, s'')
          end
      end
  end.
(** __array__, lines 831-844, for an array out of the right shape: what is in it afterwards, out[_] = self @ input_vector, and what is
    returned, out.transpose(). *)
Definition fill_array (fuel : nat) (maxiter : option Z) (rtol : R) (d : device) (s : smatrix) : option (result ((nat -> nat -> C) * (nat -> nat -> C)) * smatrix) :=
  match products fuel maxiter rtol d s (map basis (seq 0 (n_elements (optics_of d)))) with
  | None => None
  | Some (r, s') => Some (rmap (fun us => ((fun i j => nth i us zero_vec j), (fun i j => nth j us zero_vec i))) r, s')
  end.
Definition as_array (fuel : nat) (maxiter : option Z) (rtol : R) (d : device) (s : smatrix) : option (result (nat -> nat -> C) * smatrix) :=
  match fill_array fuel maxiter rtol d s with None => None | Some (r, s') => Some (rmap snd r, s') end.

(** ** Histories *)
Inductive use : Type := UMultiply (vs : list vec) | UCaching (b : bool) | UArray.
Definition apply_use (fuel : nat) (maxiter : option Z) (rtol : R) (d : device) (s : smatrix) (a : use) : option smatrix :=
  match a with
  | UMultiply vs => option_map snd (products fuel maxiter rtol d s vs)
  | UCaching b => Some (switch_caching b s)
  | UArray => option_map snd (as_array fuel maxiter rtol d s)
  end.
Fixpoint after_uses (fuel : nat) (maxiter : option Z) (rtol : R) (d : device) (s : smatrix) (l : list use) : option smatrix :=
  match l with
  | [] => Some s
  | a :: l' => match apply_use fuel maxiter rtol d s a with None => None | Some s' => after_uses fuel maxiter rtol d s' l' end
  end.

(** ** The array argument *)
(** None, a numpy array of zero, one, or two axes, or something without the attributes of an array: a list or a function. *)
Inductive array_argument : Type :=
| NotGiven
| GivenNumber (x : C)
| GivenVector (n : nat) (f : nat -> C)
| GivenTable (rows cols : nat) (f : nat -> nat -> C)
| GivenOther.
(** Lines 482-494: np.any(matrix_side != np.array(array.shape)) is False when there are no axes; enumerate(array.transpose()) has the
    elements of a vector, which broadcast when they are used as a column; iteration over an array without axes is a TypeError. *)
Definition build (side : nat) (caching : bool) (a : array_argument) (x : solution) : result smatrix :=
  let made columns := Ok {| sm_caching := caching; sm_columns := columns; sm_solution := x |} in
  match a with
  | NotGiven => made []
  | GivenNumber _ => Err TypeError
  | GivenVector n f => if (n =? side)%nat then made (map (fun j => (j, (fun _ => f j) : vec)) (seq 0 n)) else Err ValueError
  | GivenTable rows cols f =>
      if ((rows =? side) && (cols =? side))%nat then made (map (fun j => (j, (fun i => f i j) : vec)) (seq 0 cols)) else Err ValueError
  | GivenOther => Err AttributeError
  end.
