(** C178: the data types and the polarizations of beam sections. *)
From Coq Require Import List Bool.
From Verif Require Import Base Dtype_Model Dtype_Proofs.
Import ListNotations.

(** C178 (part): a section that is made with a field or a spectrum of any type can be read, assigned to and propagated,
    in any order, and all that is stored is complex. *)
Theorem dtype_works_partial : forall keeps single field field_ft dt v (l : list action),
  field <> None \/ field_ft <> None ->
  exists s, bind (construct keeps single field field_ft dt v) (fun s => acts keeps single s l) = Ok s
    /\ is_complex (s_type s) = true.
Proof. exact always_works. Qed.
Print Assumptions dtype_works_partial.

(** C178 (part): without a field, the same holds if a complex type is asked for. *)
Theorem dtype_empty_partial : forall keeps single d v (l : list action),
  is_complex d = true ->
  exists s, bind (construct keeps single None None (Some d) (Some v)) (fun s => acts keeps single s l) = Ok s
    /\ is_complex (s_type s) = true.
Proof. exact empty_works. Qed.
Print Assumptions dtype_empty_partial.

(** C178 (part): the spectrum of a scalar beam keeps its precision as long as it propagates in uniform media and no
    other is assigned. *)
Theorem dtype_kept_partial : forall keeps single x field dt v (l : list action),
  is_complex (g_type x) = true -> g_vectorial x = false ->
  Forall (fun a => match a with GetField | GetFieldFt => True | Propagate _ m => m <> Varying | _ => False end) l ->
  exists s, bind (construct keeps single field (Some x) dt v) (fun s => acts keeps single s l) = Ok s
    /\ s_type s = g_type x /\ s_vectorial s = false.
Proof. exact kept. Qed.
Print Assumptions dtype_kept_partial.

(** C178 (part): a propagation is carried out once, when the spectrum is read. *)
Theorem dtype_read_partial : forall s s', get_field_ft s = Ok s' -> s_pending s' = false.
Proof. exact read_settles. Qed.
Print Assumptions dtype_read_partial.

(** C178, refuted: when a field is given, the arguments dtype and vectorial have no effect. *)
Theorem dtype_ignored_refuted : forall keeps single field field_ft dt dt' v v',
  field <> None \/ field_ft <> None ->
  construct keeps single field field_ft dt v = construct keeps single field field_ft dt' v'.
Proof. exact ignored. Qed.
Print Assumptions dtype_ignored_refuted.

(** C178, refuted: a field of single precision is stored in double precision. *)
Theorem dtype_default_refuted : forall keeps v zero dt v',
  exists s, construct keeps false (Some {| g_type := Complex64; g_vectorial := v; g_zero := zero |}) None dt v' = Ok s
    /\ s_type s = Complex128.
Proof. exact single_precision. Qed.
Print Assumptions dtype_default_refuted.

(** C178, refuted: a section without a field is accepted, but once it has moved it cannot be read, unless a complex
    type was asked for. *)
Theorem dtype_empty_refuted : forall keeps single v,
  exists s, construct keeps single None None None (Some v) = Ok s
    /\ acts keeps single s [Propagate Forward NoMedium; GetFieldFt] = Err TypeError
    /\ acts keeps single s [Propagate Forward NoMedium; GetField] = Err TypeError.
Proof. exact empty_fails. Qed.
Print Assumptions dtype_empty_refuted.

Example dtype_ex : exists s,
  bind (construct true false (Some {| g_type := Int64; g_vectorial := true; g_zero := false |}) None None None)
    (fun s => acts true false s [Propagate Backward Varying; GetField; Propagate Forward Uniform; GetFieldFt]) = Ok s
  /\ s_vectorial s = true.
Proof. eexists. split; reflexivity. Qed.
