(** What interruptions can do to a Solution, without memory. *)
From Coq Require Import Reals List Arith Bool ZArith.
Require Import Verif.Base Verif.Cplx Verif.CSum Verif.Field Verif.Fourier_Model Verif.Vec_Model Verif.Solver_Model Verif.Derived_Model Verif.Run_Model Verif.Run_Spec Verif.Memory_Model Verif.Interrupt_Model.
Import ListNotations.
Local Open Scope R_scope.
Local Open Scope C_scope.

(** The next update would be accepted; it would be refused. *)
Definition accepts (s : solution) : Prop :=
  match prev_norm s with Inf => True | Fin q => q <> 0%R /\ (norm (operators s) (update (operators s) (field s)) / q < 1)%R end.
Definition refuses (s : solution) : Prop :=
  match prev_norm s with Inf => False | Fin q => q <> 0%R /\ ~ (norm (operators s) (update (operators s) (field s)) / q < 1)%R end.

(** Another number of iterations, and another stored residue. *)
Definition counted (s : solution) (i : Z) (r : option ext) : solution := set_residue (set_iteration s i) r.

(** What an interrupted iteration leaves.  [other]: only after an update that is refused. *)
Inductive halted (s s' : solution) : Prop :=
| nothing_done i r : r = None \/ r = residue_cache s -> s' = counted s i r -> halted s s'
| field_only i : accepts s -> s' = counted (set_field s (next_field (operators s) (field s))) i None -> halted s s'
| all_done fresh : snd (next fresh s) = None -> s' = fst (next fresh s) -> halted s s'
| other o i : refuses s -> s' = counted (set_operators s o) i None -> halted s s'.

(** A history with interruptions. *)
Inductive happening : Type := Whole (a : op) | Broken.
Inductive past (u : si) (s : solution) : list happening -> solution -> Prop :=
| past_start : past u s [] s
| past_whole l t a : past u s l t -> past u s (l ++ [Whole a]) (perform u t a)
| past_broken l t t' : past u s l t -> halted t t' -> past u s (l ++ [Broken]) t'.
(** What counts of the events. *)
Definition counts (e : event) : list happening :=
  match e with Deed (Do a) => [Whole a] | Deed _ => [] | Cut _ => [Broken] end.
Definition happenings (l : list event) : list happening := flat_map counts l.
(** The operations that were not interrupted. *)
Definition completed (l : list happening) : list op := flat_map (fun h => match h with Whole a => [a] | Broken => [] end) l.
