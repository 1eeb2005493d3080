(** Model of several iterators over one Solution: python/macromax/solver.py lines 1049-1098 (__iter__ is a generator function) and the loop
    of lines 1116-1121.
    The behaviour of generators is that of the Python language: calling the function runs nothing of its body, __next__ runs the body up to
    the next yield, an exception in the body or closing the generator ends it, and an ended generator raises StopIteration. *)
From Coq Require Import Reals List Arith ZArith Bool.
Require Import Verif.Base Verif.Cplx Verif.Field Verif.Solver_Model Verif.Derived_Model Verif.Run_Model.
Import ListNotations.

(** A generator that did not start yet, one that waits at the yield of line 1098, and one that ended. *)
Inductive generator : Type := Created | Suspended | Ended.

(** A Solution and the iterators over it, in the order in which they were made. *)
Record session : Type := { object : solution; iterators : list generator }.

Fixpoint put (l : list generator) (i : nat) (x : generator) : list generator :=
  match l, i with
  | [], _ => []
  | _ :: l', O => x :: l'
  | y :: l', S i' => y :: put l' i' x
  end.

(** iter(solution): nothing of lines 1063-1098 is run. *)
Definition start (t : session) : session := {| object := object t; iterators := iterators t ++ [Created] |}.
(** next(iterator): lines 1063-1098 when it just started, lines 1065-1098 otherwise.  The result is what is raised, if anything. *)
Definition advance (i : nat) (t : session) : session * option pyexc :=
  match nth_error (iterators t) i with
  | None => (t, Some OtherException)
  | Some Ended => (t, Some StopIteration)
  | Some x =>
      match next (match x with Created => true | _ => false end) (object t) with
      | (s, None) => ({| object := s; iterators := put (iterators t) i Suspended |}, None)
      | (s, Some e) => ({| object := s; iterators := put (iterators t) i Ended |}, Some e)
      end
  end.
(** iterator.close(), which also happens when a loop over a temporary iterator is left. *)
Definition close (i : nat) (t : session) : session := {| object := object t; iterators := put (iterators t) i Ended |}.

(** What a program can do with the iterators, in any order; [Do] for everything else that it does with the Solution. *)
Inductive event : Type := Iter | Next (i : nat) | Close (i : nat) | Do (a : op).
Definition handle (u : si) (t : session) (x : event) : session :=
  match x with
  | Iter => start t
  | Next i => fst (advance i t)
  | Close i => close i t
  | Do a => {| object := perform u (object t) a; iterators := iterators t |}
  end.
Definition play (u : si) (l : list event) (t : session) : session := fold_left (handle u) l t.
(** What each event raises, if anything. *)
Definition raises (t : session) (x : event) : option pyexc := match x with Next i => snd (advance i t) | _ => None end.
