(** Model of how the constructor of Solution reads the material properties: python/macromax/solver.py lines 221-252.
    Simplified: functions of the coordinates have been evaluated to arrays (func2arr); exact numbers, so the conversions of dtype do nothing;
    grids have at least one axis; numpy arrays are those of Array_Model. *)
From Coq Require Import Reals List Arith Bool.
Require Import Verif.Base Verif.Cplx Verif.CSum Verif.Display_Model Verif.Solver_Model Verif.Choice_Model Verif.Array_Model.
Import ListNotations.
Local Open Scope R_scope.
Local Open Scope C_scope.

(** The susceptibilities of a bound that is Electric and, or, Magnetic: lines 242 and 248. *)
Record bound_arrays : Type := { b_electric : option array; b_magnetic : option array }.

(** 1 - 2 * (real(refractive_index) < 0), lines 230-231. *)
Definition index_sign (n : C) : C := if Rlt_dec (fst n) 0 then - (1) else 1.
(** Lines 227-236: the permittivity and the permeability for a refractive index, on a grid of nd dimensions. *)
Definition from_index (nd : nat) (n mu : array) : result (array * array) :=
  let m := to_matrix_field nd n in
  bind (mul m m) (fun e =>
    if is_scalar m && any_over (ashape m) (fun p => if Rlt_dec (fst (aget m p)) 0 then true else false) then
      let sign := amap index_sign m in
      bind (abin Cmult mu sign) (fun mu' => bind (abin Cmult e sign) (fun e' => Ok (e', mu')))
    else Ok (e, mu)).
(** np.any(np.asarray(a.shape[:-nd]) > 1), lines 244 and 250. *)
Definition has_matrix_axes (nd : nat) (a : array) : bool := existsb (Nat.ltb 1) (firstn (adim a - nd) (ashape a)).
(** Lines 239-244. *)
Definition add_electric (nv nd : nat) (epsilon chi : array) : result array :=
  bind (if has_matrix_axes nd epsilon then abin Cmult (identity nv nd) chi else Ok chi) (fun c => abin Cplus epsilon c).
(** Lines 245-250. *)
Definition add_magnetic (nv nd : nat) (mu chi : array) : result array :=
  bind (if has_matrix_axes nd mu then abin Cmult (identity nv nd) chi else Ok chi) (fun c =>
  bind (abin Cmult (identity nv nd) c) (fun c' => abin Cplus mu c')).
(** Lines 223-263: the canonical forms of the permittivity and the permeability that the preconditioner is prepared for. *)
Definition read_materials (nv nd : nat) (epsilon index : option array) (mu : array) (b : bound_arrays) : result (array * array) :=
  bind (match epsilon with
        | Some e => Ok (e, mu)
        | None => from_index nd match index with Some n => n | None => number 1 end mu
        end) (fun em =>
  bind (match b_electric b with Some chi => add_electric nv nd (fst em) chi | None => Ok (fst em) end) (fun e =>
  bind (match b_magnetic b with Some chi => add_magnetic nv nd (snd em) chi | None => Ok (snd em) end) (fun m =>
  Ok (to_matrix_field nd e, to_matrix_field nd m)))).
