(** Errors in beams: C191. *)
From Coq Require Import Reals List Arith.
Require Import Verif.Base Verif.Cplx Verif.CSum Verif.Field Verif.Fourier_Model Verif.Vec_Model Verif.Beam_Model Verif.Robust_Spec.
Import ListNotations.
Local Open Scope R_scope.

(** The distance between two fields or spectra of a section: the root of the sum of squares over the components and points. *)
Definition gap (b : setup) (F H : vfield) : R := size (bcomp b) (bshape b) (fun c p => F c p - H c p)%C.
(** The number of slices with a medium in a history. *)
Fixpoint slices (l : list action) : nat :=
  match l with [] => 0%nat | Propagate _ (Some _) :: l' => S (slices l') | _ :: l' => slices l' end.
(** A history in which every action is carried out with an error in the spectrum of at most e. *)
Fixpoint noisy (b : setup) (e : R) (l : list action) (s t : section) : Prop :=
  match l with
  | [] => t = s
  | a :: l' => exists s', pending s' = pending (act b s a) /\ gap b (read_ft b s') (read_ft b (act b s a)) <= e /\ noisy b e l' s' t
  end.
