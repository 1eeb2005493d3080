(** Vocabulary for programs with several iterators over one Solution. *)
From Coq Require Import Reals List Arith ZArith Bool.
Require Import Verif.Base Verif.Cplx Verif.Field Verif.Solver_Model Verif.Derived_Model Verif.Run_Model Verif.Run_Spec Verif.Iterators_Model.
Import ListNotations.

(** All that can be read of the Solution is the same, except for the iteration number. *)
Definition same_solution (s s' : solution) : Prop :=
  get_E s = get_E s' /\ get_source s = get_source s' /\ get_epsilon s = get_epsilon s' /\ operators s = operators s' /\
  previous_update_norm s = previous_update_norm s' /\ snd (read_residue s) = snd (read_residue s').

(** Nothing is raised. *)
Fixpoint succeeds (u : si) (l : list event) (t : session) : Prop :=
  match l with [] => True | x :: l' => raises t x = None /\ succeeds u l' (handle u t x) end.

(** The program as one in which a single iterator does all the work: the choice of the iterator is left out. *)
Definition single (x : event) : list op :=
  match x with Next _ => [ONext false] | Do a => [a] | _ => [] end.
Definition merged (l : list event) : list op := flat_map single l.
Definition advances (x : event) : bool := match x with Next _ => true | _ => false end.

(** The event does not start an iterator, nor assigns the number. *)
Definition continues (t : session) (x : event) : Prop :=
  match x with
  | Next i => nth_error (iterators t) i = Some Suspended
  | Do (ONext _) | Do (OSetIteration _) => False
  | _ => True
  end.
Fixpoint all_continue (u : si) (l : list event) (t : session) : Prop :=
  match l with [] => True | x :: l' => continues t x /\ all_continue u l' (handle u t x) end.

(** The body of a loop over a Solution that makes another loop over it and leaves that at once:
    [for s in solution: if s.iteration >= m: break; for _ in s: break] *)
Definition nested {W} (m : Z) : callback W := fun w s =>
  if (iteration s <? m)%Z then let (s', e) := next true s in (w, s', match e with None => Ok true | Some e => Err e end) else (w, s, Ok false).
