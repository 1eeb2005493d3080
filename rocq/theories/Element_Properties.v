(** C182, C183: matrices that can be constructed can be multiplied, and elements that are assigned are read back. *)
From Coq Require Import Reals Lra Lia List Arith Bool.
Require Import Verif.Base Verif.Cplx Verif.CSum Verif.Element_Model Verif.Element_Spec Verif.Element_Proofs.
Import ListNotations.

(** C182.  A Matrix of an array or of nested lists multiplies vectors by its elements, if no shape or its own shape is given. *)
Theorem constructed_matrix_partial : forall x t,
  x = GivenArray t \/ x = GivenLists t ->
  (exists m, matrix_of x None = Ok m /\ multiplies m (t_rows t) (t_cols t) (t_at t))
  /\ (exists m, matrix_of x (Some (t_rows t, t_cols t)) = Ok m /\ multiplies m (t_rows t) (t_cols t) (t_at t)).
Proof. exact matrix_multiplies. Qed.
Print Assumptions constructed_matrix_partial.

(** A SquareMatrix of a square array does, with no side or its side. *)
Theorem constructed_square_partial : forall x t side,
  x = GivenArray t \/ x = GivenLists t -> t_rows t = t_cols t -> side = None \/ side = Some (t_rows t) ->
  exists m, square_of x side = Ok m /\ multiplies m (t_rows t) (t_rows t) (t_at t).
Proof. exact square_multiplies. Qed.
Print Assumptions constructed_square_partial.

(** Arrays that are not square are rejected when no side is given, and arrays with another number of columns than the side. *)
Theorem constructed_rejected : forall x t,
  x = GivenArray t \/ x = GivenLists t ->
  (t_rows t <> t_cols t -> square_of x None = Err ValueError) /\ (forall n, n <> t_cols t -> square_of x (Some n) = Err ValueError).
Proof. exact square_rejects. Qed.
Print Assumptions constructed_rejected.

(** But every array that is not square is accepted when its number of columns is given as the side, and nothing can be multiplied then. *)
Theorem constructed_square_refuted : forall x t,
  x = GivenArray t \/ x = GivenLists t -> t_rows t <> t_cols t ->
  exists m, square_of x (Some (t_cols t)) = Ok m /\ m_rows m = t_cols t /\ useless m.
Proof. exact square_useless. Qed.
Print Assumptions constructed_square_refuted.

(** Any other shape is accepted for a Matrix, and reported, and nothing can be multiplied. *)
Theorem constructed_matrix_refuted : forall x t r c,
  x = GivenArray t \/ x = GivenLists t -> (r, c) <> (t_rows t, t_cols t) ->
  exists m, matrix_of x (Some (r, c)) = Ok m /\ m_rows m = r /\ m_cols m = c /\ useless m.
Proof. exact matrix_useless. Qed.
Print Assumptions constructed_matrix_refuted.

(** A function that returns an array, as documented, is of no use: either the matrix cannot be constructed or nothing can be multiplied. *)
Theorem constructed_function_refuted :
  (forall side, exists e, square_of GivenFunction side = Err e)
  /\ (exists e, matrix_of GivenFunction None = Err e)
  /\ (forall s m, matrix_of GivenFunction (Some s) = Ok m -> useless m).
Proof. exact function_useless. Qed.
Print Assumptions constructed_function_refuted.

(** C183.  The elements of a SquareMatrix are those of its array; after any history of assignments of numbers that the array can hold, they
    are those last assigned. *)
Theorem elements_kept_partial : forall x t l,
  x = GivenArray t \/ x = GivenLists t -> t_rows t = t_cols t ->
  Forall (fun a => (a_row a < t_rows t)%nat /\ (a_col a < t_rows t)%nat /\ holds (t_kind t) (a_value a)) l ->
  exists m m', square_of x None = Ok m /\ reads m (t_rows t) (t_at t)
    /\ assigns m l = Ok m' /\ reads m' (t_rows t) (fun i j => latest l i j (t_at t i j)).
Proof. exact element_histories. Qed.
Print Assumptions elements_kept_partial.

(** Elements that do not exist cannot be assigned. *)
Theorem elements_outside : forall x t m i j v,
  x = GivenArray t \/ x = GivenLists t -> square_of x None = Ok m -> (t_rows t <= i)%nat \/ (t_rows t <= j)%nat ->
  assign m i j v = Err IndexError.
Proof. exact element_outside. Qed.
Print Assumptions elements_outside.

(** The type of the array is not that of the matrix, complex numbers: a matrix of real numbers rejects the complex numbers of Python, and
    drops the imaginary part of those of numpy. *)
Theorem elements_complex_refuted : forall x t m i j v,
  x = GivenArray t \/ x = GivenLists t -> t_kind t = Reals -> square_of x None = Ok m ->
  (i < t_rows t)%nat -> (j < t_rows t)%nat -> v_kind v = Complexes ->
  (v_source v = FromPython -> assign m i j v = Err TypeError)
  /\ (v_source v = FromNumpy -> exists m', assign m i j v = Ok m' /\ element m' i j = Ok (RtoC (fst (v_number v)))).
Proof. exact real_lost. Qed.
Print Assumptions elements_complex_refuted.

(** A matrix of integers makes 0 of all real numbers between -1 and 1. *)
Theorem elements_integer_refuted : forall x t m i j v,
  x = GivenArray t \/ x = GivenLists t -> t_kind t = Ints -> square_of x None = Ok m ->
  (i < t_rows t)%nat -> (j < t_rows t)%nat -> v_kind v = Reals -> (-1 < fst (v_number v) < 1)%R ->
  exists m', assign m i j v = Ok m' /\ element m' i j = Ok (RtoC 0).
Proof. exact integer_lost. Qed.
Print Assumptions elements_integer_refuted.

(** A Matrix of nested lists allows no assignment to any element. *)
Theorem elements_lists_refuted : forall t i j v,
  exists m, matrix_of (GivenLists t) None = Ok m /\ assign m i j v = Err TypeError.
Proof. exact lists_fixed. Qed.
Print Assumptions elements_lists_refuted.

(** Elements change without an assignment to the matrix: when the caller changes the array that was given. *)
Theorem elements_shared_refuted : forall t m i j v,
  t_rows t = t_cols t -> square_of (GivenArray t) None = Ok m -> (i < t_rows t)%nat -> (j < t_rows t)%nat -> holds (t_kind t) v ->
  exists m', caller_assigns m i j v = Ok m' /\ element m' i j = Ok (v_number v).
Proof. exact caller_changes. Qed.
Print Assumptions elements_shared_refuted.

(** Two numbers assigned to the same element of a matrix of two by two complex numbers: the last one is read, and the others stay. *)
Example elements_example :
  let t := {| t_kind := Complexes; t_rows := 2; t_cols := 2; t_at := fun i j => RtoC (INR (i + j)) |} in
  let a i j x := {| a_row := i; a_col := j; a_value := {| v_source := FromPython; v_kind := Complexes; v_number := x |} |} in
  exists m m', square_of (GivenArray t) None = Ok m /\ assigns m [a 0%nat 1%nat (1, 2)%R; a 1%nat 1%nat (3, 4)%R; a 0%nat 1%nat (5, 6)%R] = Ok m'
    /\ element m' 0 1 = Ok (5, 6)%R /\ element m' 1 1 = Ok (3, 4)%R /\ element m' 1 0 = Ok (RtoC 1).
Proof.
  intros t a.
  assert (F : Forall (fun b => (a_row b < t_rows t)%nat /\ (a_col b < t_rows t)%nat /\ holds (t_kind t) (a_value b))
                     [a 0%nat 1%nat (1, 2)%R; a 1%nat 1%nat (3, 4)%R; a 0%nat 1%nat (5, 6)%R]).
  { repeat (constructor; [cbn; repeat split; lia|]). constructor. }
  destruct (elements_kept_partial (GivenArray t) t _ (or_introl eq_refl) eq_refl F) as (m & m' & E & _ & E' & H).
  exists m, m'. refine (conj E (conj E' _)). cbn [t_rows t] in H.
  refine (conj _ (conj _ _)); [rewrite (proj1 (H 0%nat 1%nat ltac:(lia) ltac:(lia)))|rewrite (proj1 (H 1%nat 1%nat ltac:(lia) ltac:(lia)))
    |rewrite (proj1 (H 1%nat 0%nat ltac:(lia) ltac:(lia)))]; cbn; reflexivity.
Qed.
(** An array of three rows and two columns is rejected, but accepted when 2 is given as its side. *)
Example constructed_example :
  let t := {| t_kind := Reals; t_rows := 3; t_cols := 2; t_at := fun _ _ => RtoC 1 |} in
  square_of (GivenArray t) None = Err ValueError
  /\ exists m, square_of (GivenArray t) (Some 2%nat) = Ok m /\ forall v, product m 2 v = Err ValueError.
Proof. split; [reflexivity|]. eexists. split; [reflexivity|]. intro v. reflexivity. Qed.
