(** C125, C126: several iterators over one Solution. *)
From Coq Require Import Reals Lra Lia List Arith ZArith Bool.
Require Import Verif.Base Verif.Cplx Verif.Field Verif.Fourier_Model Verif.Vec_Model Verif.Solver_Model Verif.Solver_Spec Verif.Derived_Model Verif.Run_Model Verif.Run_Spec Verif.Run_Proofs.
Require Import Verif.Iterators_Model Verif.Iterators_Spec Verif.Iterators_Proofs.
Import ListNotations.

(** C125: it does not matter which iterators make the steps, when they are made, and when they are closed: the result is that of one iterator. *)
Theorem schedule_independent : forall u l t, succeeds u l t -> same_solution (object (play u l t)) (history u (merged l) (object t)).
Proof. exact interleaved_history. Qed.
Print Assumptions schedule_independent.
Theorem schedules_agree : forall u l l' t t', object t = object t' -> succeeds u l t -> succeeds u l' t' -> merged l = merged l' ->
  same_solution (object (play u l t)) (object (play u l' t')).
Proof. exact interleaved_same. Qed.
Print Assumptions schedules_agree.
(** C125: making and closing iterators does not change the Solution at all. *)
Theorem making_iterators : forall u t x, (x = Iter \/ exists i, x = Close i) -> object (handle u t x) = object t.
Proof. intros u t x [-> | (i & ->)]; reflexivity. Qed.
Print Assumptions making_iterators.

(** C126: the iteration number counts the steps of all iterators, from the last time that a new iterator made its first step. *)
Theorem steps_counted : forall u i l t, nth_error (iterators t) i = Some Created -> let t' := handle u t (Next i) in
  succeeds u (Next i :: l) t -> all_continue u l t' -> iteration (object (play u (Next i :: l) t)) = (1 + Z.of_nat (length (filter advances l)))%Z.
Proof. exact count_started. Qed.
Print Assumptions steps_counted.
(** C126: the documentation says that obtaining an iterator resets the counter. *)
Theorem obtaining_resets_refuted : forall u t, iteration (object t) <> 0%Z -> iteration (object (handle u t Iter)) <> 0%Z.
Proof. intros u t H. exact H. Qed.
Print Assumptions obtaining_resets_refuted.
(** C126: so that the number is not that of the steps of each iterator: a loop that stops at a given number does not stop when it starts
    another loop over the same Solution. *)
Theorem nested_loop_refuted : forall (W : Type) m fuel (w w' : W) s s', (3 <= m)%Z -> solve_method fuel s (Given (nested m)) 0 None w <> Some (Returned w' s').
Proof. intros W m fuel w w' s s' Hm. exact (nested_never_ends m fuel Hm true w s (or_introl eq_refl) w' s'). Qed.
Print Assumptions nested_loop_refuted.

(** C125: after an error an iterator has ended.  It makes no more steps, also when a new source or field is assigned. *)
Theorem iterator_ends_with_error : forall u l t i e, raises t (Next i) = Some e -> nth_error (iterators t) i <> None ->
  let t' := play u (Next i :: l) t in advance i t' = (t', Some StopIteration).
Proof. exact ended_after_error. Qed.
Print Assumptions iterator_ends_with_error.

(** Two iterators that take turns, with an assignment in between. *)
Example two_iterators : let t0 := {| object := construct {| rshape := [2%nat]; rstep := [1%R] |} false false 1 (1, 1)%R 1 (TScalar (fun _ => RtoC 1)) tzero tzero
      (TScalar (fun _ => RtoC 1)) (fun _ _ => RtoC 1) None (fun _ _ => RtoC 0); iterators := [] |} in
  forall u E, let l := [Iter; Iter; Next 0; Do (OSetE E); Next 1] in
  succeeds u l t0 /\ merged l = [ONext false; OSetE E; ONext false] /\ iteration (object (play u l t0)) = 1%Z.
Proof. intros t0 u E l. unfold l, t0. repeat split. Qed.
