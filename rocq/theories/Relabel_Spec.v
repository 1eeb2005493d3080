(** The order of the axes of a beam: C189. *)
From Coq Require Import Reals List Arith Bool.
Require Import Verif.Base Verif.Cplx Verif.CSum Verif.Field Verif.Fourier_Spec Verif.Vec_Model Verif.Symmetry_Spec Verif.Beam_Model.
Import ListNotations.

(** Axes number [axis] and [axis + 1] of a section change places, also when one of them is the propagation axis ([exchange], [exchange_index], [exchanged]: Symmetry_Spec). *)
Definition exchanged_setup (axis : nat) (b : setup) : setup :=
  {| bgrid := exchanged_grid axis (bgrid b); bfirst := fun c => bfirst b (exchange_index axis c); bk := bk b; bn := bn b; baxis := exchange_index axis (baxis b); bcomp := bcomp b |}.
Definition exchanged_medium (axis : nat) (m : option sfield) : option sfield := option_map (fun n p => n (exchange axis p)) m.
Definition exchanged_action (v : bool) (axis : nat) (x : action) : action :=
  match x with
  | Propagate d m => Propagate d (exchanged_medium axis m)
  | ReadFt => ReadFt
  | ReadField => ReadField
  | SetFt F => SetFt (exchanged v axis F)
  | SetField f => SetField (exchanged v axis f)
  end.
(** Any number of such exchanges, which give every order of the axes. *)
Definition reordered_setup (axes : list nat) (b : setup) : setup := fold_left (fun b axis => exchanged_setup axis b) axes b.
Definition reordered (v : bool) (axes : list nat) (F : vfield) : vfield := fold_left (fun F axis => exchanged v axis F) axes F.
Definition reordered_action (v : bool) (axes : list nat) (x : action) : action := fold_left (fun x axis => exchanged_action v axis x) axes x.
Definition reordered_media (axes : list nat) (l : list (option sfield)) : list (option sfield) := fold_left (fun l axis => map (exchanged_medium axis) l) axes l.
