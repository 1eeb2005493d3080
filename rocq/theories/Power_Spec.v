(** Vocabulary for the statements about power: time averages of fields with time dependence exp(-i omega t), summed over the grid. *)
From Coq Require Import Reals List.
Require Import Verif.Cplx Verif.CSum Verif.Field Verif.Derived_Model.
Local Open Scope R_scope.

(** Twice the mean power that the current J delivers to the field: - Re (E^H J). *)
Definition delivered (s : list nat) (E J : nat -> list nat -> C) : R := (- fst (vip 3 s E J))%R.
(** Twice the mean power that the medium takes: omega Im (E^H D + H^H B). *)
Definition absorbed (u : si) (s : list nat) (k0 : R) (E D H B : nat -> list nat -> C) : R := (k0 * c_light u * (snd (vip 3 s E D) + snd (vip 3 s H B)))%R.
