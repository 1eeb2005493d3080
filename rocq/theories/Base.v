(** Common definitions: Python exceptions as values. *)
From Coq Require Export List ZArith Bool Lia.
Export ListNotations.

(** The exception classes that the modelled functions can raise (Python built-ins). *)
Inductive pyexc : Type :=
| ValueError | TypeError | IndexError | AttributeError | KeyError
| ZeroDivisionError | OverflowError | ImportError | StopIteration | OtherException.

(** Outcome of a Python call: either a value or a raised exception. *)
Inductive result (A : Type) : Type :=
| Ok : A -> result A
| Err : pyexc -> result A.
Arguments Ok {A} _.
Arguments Err {A} _.

Definition bind {A B : Type} (x : result A) (f : A -> result B) : result B :=
  match x with Ok a => f a | Err e => Err e end.

Definition rmap {A B : Type} (f : A -> B) (x : result A) : result B :=
  match x with Ok a => Ok (f a) | Err e => Err e end.

Definition is_ok {A : Type} (x : result A) : bool :=
  match x with Ok _ => true | Err _ => false end.

Notation "'do' x <- e1 ; e2" := (bind e1 (fun x => e2))
  (at level 200, x name, e1 at level 100, e2 at level 200, right associativity).

(** Product of a list of naturals: the number of elements of an array of that shape. *)
Fixpoint prodn (l : list nat) : nat :=
  match l with [] => 1 | x :: l => x * prodn l end.
