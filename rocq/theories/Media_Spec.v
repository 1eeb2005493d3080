(** What the media that are given to Beam.field state, in terms of the coordinates of the grid that is given. *)
From Coq Require Import Reals List Arith ZArith Bool.
Require Import Verif.Base Verif.Num Verif.Grid_Model Verif.Grid_Spec.
Require Import Verif.Cplx Verif.CSum Verif.Field Verif.Fourier_Model Verif.Fourier_Spec Verif.Vec_Model Verif.Array_Model Verif.Array_Spec Verif.Launch_Model Verif.Launch_Spec Verif.Whole_Spec Verif.Media_Model.
Import ListNotations.
Local Open Scope R_scope.
Local Open Scope C_scope.

(** The values of a slice at the points of a section: a number, an array that broadcasts, or a function of the three coordinates. *)
Definition means_slice (g : grid RN) (a : nat) (crd : nat -> list R) (x : slice_arg) (m : sfield) : Prop :=
  let s := rshape (across g a) in
  match x with
  | SNumber c => forall p, inside s p -> m p = c
  | SArray y => Array_Spec.broadcasts y s /\ forall p, inside s p -> m p = bget y p
  | SFunction n f => n = 3%nat /\ forall p, inside s p -> m p = f (map (place g a crd p) [0; 1; 2]%nat)
  end.
(** The values of all slices: as a sequence, or as an array of the shape of the given grid, if its first axis is the propagation axis. *)
Definition means_media (g : grid RN) (a : nat) (crd : nat -> list R) (x : media_arg) (ms : list sfield) : Prop :=
  match x with
  | MSequence l => Forall2 (means_slice g a crd) l ms
  | MVolume A =>
      a = offset g /\ ashape A = map (Grid_Spec.points g) (seq 0 (ndim RN g)) /\ length ms = Grid_Spec.points g 0 /\
      forall i p, (i < length ms)%nat -> inside (rshape (across g a)) p -> nth i ms (fun _ => 0) p = aget A (i :: skipn (Datatypes.S a) p)
  end.
(** The refractive indices that are asked for, directly or as the permittivities. *)
Definition asked_media (g : grid RN) (a : nat) (crd : nat -> list R) (permittivity refractive_index : option media_arg) (ms : list sfield) : Prop :=
  match permittivity, refractive_index with
  | None, Some y => means_media g a crd y ms
  | Some x, None => exists es, means_media g a crd x es /\ Forall2 (fun e m : sfield => forall p, inside (rshape (across g a)) p -> principal_root (e p) (m p)) es ms
  | _, _ => False
  end.
(** The indices or permittivities given for each slice as numbers. *)
Definition numbers (l : list C) : media_arg := MSequence (map SNumber l).
(** An array of the shape of a grid with three axes that consists of homogeneous layers along its first axis, or along its last. *)
Definition layered_first (g : grid RN) (l : list C) (A : array) : Prop :=
  ashape A = map (Grid_Spec.points g) [0; 1; 2]%nat /\ length l = Grid_Spec.points g 0 /\ forall p, aget A p = nth (nth 0 p 0%nat) l 0.
Definition layered_last (g : grid RN) (l : list C) (A : array) : Prop :=
  ashape A = map (Grid_Spec.points g) [0; 1; 2]%nat /\ length l = Grid_Spec.points g 2 /\ forall p, aget A p = nth (nth 2 p 0%nat) l 0.
