(** Problems that only differ in the amplitude of their sources. *)
From Coq Require Import Reals List Arith ZArith Bool.
Require Import Verif.Base Verif.Cplx Verif.CSum Verif.Field Verif.Fourier_Model Verif.Vec_Model Verif.Solver_Model Verif.Derived_Model Verif.Run_Model.
Import ListNotations.
Local Open Scope R_scope.
Local Open Scope C_scope.

(** A field multiplied by a number. *)
Definition times (a : C) (F : vfield) : vfield := fun c p => a * F c p.
(** A Solution for the same material, of which the source and the field are multiplied by a, and the size of the last correction by
    the magnitude of a; nothing else differs. *)
Definition amplified_ops (a : C) (o : ops) : ops :=
  {| o_grid := o_grid o; o_vectorial := o_vectorial o; o_magnetic := o_magnetic o; o_alpha := o_alpha o; o_beta := o_beta o;
     o_chiEE := o_chiEE o; o_chiEH := o_chiEH o; o_chiHE := o_chiHE o; o_chiHH := o_chiHH o; o_source := times a (o_source o) |}.
Definition amplified (a : C) (x : solution) : solution :=
  {| wavenumber := wavenumber x; bound_chi := bound_chi x; operators := amplified_ops a (operators x); field := times a (field x);
     prev_norm := match prev_norm x with Fin q => Fin (Cmod a * q) | Inf => Inf end; iteration := iteration x; residue_cache := residue_cache x |}.
(** The same action, where a source, a current density, or a field that is assigned is multiplied by a. *)
Definition amplified_op (a : C) (b : op) : op :=
  match b with
  | OSetE E => OSetE (times a E)
  | OSetSource src => OSetSource (times a src)
  | OSetJ J => OSetJ (times a J)
  | _ => b
  end.
Definition amplified_outcome {W} (a : C) (r : outcome W) : outcome W :=
  match r with Returned w x => Returned w (amplified a x) | Raised w x e => Raised w (amplified a x) e end.
(** A callback that does the same for all amplitudes, for instance because it only looks at the iteration number and the residue. *)
Definition blind {W} (a : C) (cb : callback W) : Prop := forall w x, cb w (amplified a x) = let '(w', x', r) := cb w x in (w', amplified a x', r).
