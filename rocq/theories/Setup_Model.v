(** Model of the decisions in the constructor of Solution: python/macromax/solver.py lines 149-157 (wavenumber), 174-209 (source,
    vectorial, dtype) and 639-674 (properties).
    Simplified: sources are given by their number of axes, first axis and data type; functions are evaluated before; real numbers are
    exact. *)
From Coq Require Import Reals List Arith Bool.
Require Import Verif.Base.
Import ListNotations.
Local Open Scope R_scope.

(** Lines 149-157. *)
Definition choose_wavenumber (c_light : R) (angular_frequency vacuum_wavelength : option R) (wavenumber : R) : R :=
  match angular_frequency with
  | Some w => w / c_light
  | None => match vacuum_wavelength with Some l => 2 * PI / l | None => wavenumber end
  end.
(** The angular_frequency and wavelength properties, lines 656-672. *)
Definition angular_frequency_of (c_light k : R) : R := k * c_light.
Definition wavelength_of (k : R) : R := 2 * PI / k.

(** The data types of numpy that numbers can have. *)
Inductive dtype : Type := DBool | DInt | DFloat16 | DFloat32 | DFloat64 | DLongDouble | DComplex64 | DComplex128 | DCLongDouble.
Definition dtype_eqb (a b : dtype) : bool :=
  match a, b with
  | DBool, DBool | DInt, DInt | DFloat16, DFloat16 | DFloat32, DFloat32 | DFloat64, DFloat64 | DLongDouble, DLongDouble
  | DComplex64, DComplex64 | DComplex128, DComplex128 | DCLongDouble, DCLongDouble => true
  | _, _ => false
  end.
(** np.issubdtype(dtype, np.complexfloating). *)
Definition is_complex (d : dtype) : bool := match d with DComplex64 | DComplex128 | DCLongDouble => true | _ => false end.
(** The type of an array times a Python complex number. *)
Definition times_complex (d : dtype) : dtype :=
  match d with
  | DBool | DInt | DFloat64 => DComplex128
  | DFloat16 | DFloat32 => DComplex64
  | DLongDouble => DCLongDouble
  | _ => d
  end.
(** A source array: its shape and type. *)
Record source_array : Type := { sshape : list nat; stype : dtype }.

(** Lines 174-185: the source distribution and the vectorial flag after this. *)
Definition choose_source (gs : list nat) (vectorial : option bool) (current source : option source_array) (dt : option dtype) : source_array * option bool :=
  match source with
  | Some s => (s, vectorial)
  | None =>
      let (j, vec) := match current with
        | Some j => (j, vectorial)
        | None =>
            let b := match vectorial with Some b => b | None => true end in
            ({| sshape := (if b then 3 else 1)%nat :: gs; stype := match dt with Some d => d | None => DComplex128 end |}, Some b)
        end in
      ({| sshape := sshape j; stype := times_complex (stype j) |}, vec)
  end.
(** Lines 187-195. *)
Definition choose_vectorial (gs : list nat) (vectorial : option bool) (s : source_array) : bool :=
  match vectorial with
  | Some b => b
  | None => (length gs <? length (sshape s))%nat && (nth 0 (sshape s) 0 =? 3)%nat
  end.
(** Lines 203-209. *)
Definition choose_dtype (dt : option dtype) (s : source_array) : dtype :=
  let d := match dt with Some d => d | None => stype s end in
  if is_complex d then d
  else if dtype_eqb d DFloat16 || dtype_eqb d DFloat32 then DComplex64 else DComplex128.
(** The vectorial and dtype properties of the new Solution. *)
Definition setup (gs : list nat) (vectorial : option bool) (current source : option source_array) (dt : option dtype) : bool * dtype :=
  let (s, vec) := choose_source gs vectorial current source dt in (choose_vectorial gs vec s, choose_dtype dt s).
