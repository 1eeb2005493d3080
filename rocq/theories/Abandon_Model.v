(** Model of a ScatteringMatrix whose calculations are interrupted, by control-C or an exception that is not their own:
    python/macromax/matrix.py lines 650-669 (source2detfield), 770-820 (_matvec), and 831-844 (__array__).
    The statements that change attributes are those of the setters of source_distribution and E (solver.py lines 703-720 and 823-832), of the iterations
    (solver.py lines 1063-1098, in Interrupt_Model), of the stored residue (solver.py lines 1026-1042), and of the cache (matrix.py line 814).
    Simplified: as Stored_Model.  Arrays that are being assigned can hold anything, which is more than Python allows. *)
From Coq Require Import Reals List Arith ZArith Bool.
Require Import Verif.Base Verif.Cplx Verif.CSum Verif.Field Verif.Fourier_Model Verif.Vec_Model Verif.Solver_Model Verif.Derived_Model Verif.Run_Model.
Require Import Verif.Matrix_Model Verif.Modes_Model Verif.Modes_Spec Verif.Scatter_Model Verif.Stored_Model Verif.Interrupt_Spec.
Import ListNotations.
Local Open Scope R_scope.
Local Open Scope C_scope.

(** The loop of solve, solver.py lines 1116-1121, on its way: the Solution before each iteration, and whether this is the first. *)
Inductive underway (cb : callback unit) : bool -> solution -> bool -> solution -> Prop :=
| underway_start fresh s : underway cb fresh s fresh s
| underway_next fresh s s1 s2 f t : next fresh s = (s1, None) -> cb tt s1 = (tt, s2, Ok true) -> underway cb false s2 f t -> underway cb fresh s f t.

(** The Solution when source2detfield is interrupted, matrix.py lines 660-664.  An interrupted iteration leaves what C174 says. *)
Inductive abandoned (maxiter : option Z) (rtol : R) (x : solution) (S : vfield) : solution -> Prop :=
| nothing_assigned : abandoned maxiter rtol x S x
| while_source S' : abandoned maxiter rtol x S (set_operators x (with_source (operators x) S'))
| source_assigned : abandoned maxiter rtol x S (set_source x S)
| while_field F : abandoned maxiter rtol x S (set_field (set_source x S) F)
| while_iterating fresh t y : underway (limits maxiter rtol) true (set_E (set_source x S) (fun _ _ => 0)) fresh t -> halted t y -> abandoned maxiter rtol x S y
| while_asking fresh t y : underway (limits maxiter rtol) true (set_E (set_source x S) (fun _ _ => 0)) fresh t -> next fresh t = (y, None) -> abandoned maxiter rtol x S y
| while_deciding fresh t y : underway (limits maxiter rtol) true (set_E (set_source x S) (fun _ _ => 0)) fresh t -> next fresh t = (y, None) ->
    abandoned maxiter rtol x S (fst (read_residue y)).

(** One column of _matvec that is interrupted, lines 789-820: before or during the calculation, between the calculation and the assignment to the cache, and after it. *)
Inductive column_cut (maxiter : option Z) (rtol : R) (d : device) (s : smatrix) (v : vec) : smatrix -> Prop :=
| cut_before : column_cut maxiter rtol d s v s
| cut_during y : abandoned maxiter rtol (sm_solution s) (source_of d v) y -> column_cut maxiter rtol d s v (with_solution s y)
| cut_unstored fuel r s' : product_column fuel maxiter rtol d s v = Some (r, s') -> column_cut maxiter rtol d s v (with_solution s (sm_solution s'))
| cut_stored fuel r s' : product_column fuel maxiter rtol d s v = Some (r, s') -> column_cut maxiter rtol d s v s'.
(** The loop over the columns, line 789, interrupted after k of them. *)
Inductive products_cut (maxiter : option Z) (rtol : R) (d : device) : smatrix -> list vec -> nat -> smatrix -> Prop :=
| cut_first s v vs s' : column_cut maxiter rtol d s v s' -> products_cut maxiter rtol d s (v :: vs) 0 s'
| cut_later s v vs fuel u s1 k s' : product_column fuel maxiter rtol d s v = Some (Ok u, s1) -> products_cut maxiter rtol d s1 vs k s' ->
    products_cut maxiter rtol d s (v :: vs) (S k) s'
| cut_end s : products_cut maxiter rtol d s [] 0 s.
(** What a user does with the matrix, interrupted: the conversion to an array multiplies with the basis vectors, lines 838-842. *)
Definition use_cut (maxiter : option Z) (rtol : R) (d : device) (s : smatrix) (a : use) (s' : smatrix) : Prop :=
  match a with
  | UMultiply vs => exists k, products_cut maxiter rtol d s vs k s'
  | UCaching b => s' = s \/ s' = switch_caching b s
  | UArray => exists k, products_cut maxiter rtol d s (map basis (seq 0 (n_elements (optics_of d)))) k s'
  end.

(** Histories. *)
Inductive occasion : Type := Used (a : use) | Stopped (a : use).
Definition used (e : occasion) : use := match e with Used a => a | Stopped a => a end.
Inductive endured (maxiter : option Z) (rtol : R) (d : device) (s : smatrix) : list occasion -> smatrix -> Prop :=
| endured_start : endured maxiter rtol d s [] s
| endured_used l t fuel a t' : endured maxiter rtol d s l t -> apply_use fuel maxiter rtol d t a = Some t' -> endured maxiter rtol d s (l ++ [Used a]) t'
| endured_stopped l t a t' : endured maxiter rtol d s l t -> use_cut maxiter rtol d t a t' -> endured maxiter rtol d s (l ++ [Stopped a]) t'.
