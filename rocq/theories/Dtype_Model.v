(** Model of the data types and of the polarization axis in BeamSection, python/macromax/utils/beam.py lines 20-374.
    The values of the arrays are those of Beam_Model; here only the types, and the exceptions that these cause.
    Simplified: the types of numpy that are modelled are those below; values that are not zero are not close to zero. *)
From Coq Require Import List Bool.
From Verif Require Import Base.

(** numpy.int64, float32, float64, complex64, complex128. *)
Inductive dtype : Type := Int64 | Float32 | Float64 | Complex64 | Complex128.
Definition is_complex (d : dtype) : bool := match d with Complex64 | Complex128 => true | _ => false end.

(** The type of a product or a difference with an array of double precision: real, as [__k_dir], or complex, as
    [__shift_ft] and the propagators. *)
Definition with_float64 (d : dtype) : dtype := if is_complex d then Complex128 else Float64.
Definition with_complex128 (d : dtype) : dtype := Complex128.

(** [arr *= x] where x has the type complex128: numpy casts the result back if that is of the same kind. *)
Definition imul (d : dtype) : result dtype := if is_complex d then Ok d else Err TypeError.

(** Fourier transforms of arrays of type [d]: of double precision, or of the same precision as their argument; this
    depends on the package.  pyfftw and mkl_fft keep it, numpy.fft does not. *)
Definition transformed (keeps : bool) (d : dtype) : dtype :=
  match d with
  | Float32 | Complex64 => if keeps then Complex64 else Complex128
  | _ => Complex128
  end.

(** The state: the type of [__field_ft], whether it has three polarizations, whether it is zero everywhere, and whether
    there is a [__propagation_relative_distance]. *)
Record section : Type := { s_type : dtype; s_vectorial : bool; s_zero : bool; s_pending : bool }.

(** A field that is given: its type, whether it has three polarizations, and whether it is zero everywhere. *)
Record given : Type := { g_type : dtype; g_vectorial : bool; g_zero : bool }.

Section Package.
  Variable keeps : bool.
  (** The grid has no more than a single point: lines 191 and 219. *)
  Variable single : bool.

  (** [__update_field_ft], lines 319-327, with [__transverse_projection_field_ft], lines 296-317. *)
  Definition update_field_ft (d : dtype) (vectorial zero : bool) : section :=
    {| s_type := if vectorial then with_float64 d else d; s_vectorial := vectorial; s_zero := zero; s_pending := false |}.
  (** The setter of field_ft, lines 259-294. *)
  Definition set_field_ft (x : given) : section :=
    let d := if is_complex (g_type x) then g_type x
             else match g_type x with Float32 => Complex64 | _ => Complex128 end in
    update_field_ft d (g_vectorial x) (g_zero x).
  (** The setter of field, lines 201-228. *)
  Definition set_field (x : given) : section :=
    if single then set_field_ft x
    else update_field_ft (with_complex128 (transformed keeps (g_type x))) (g_vectorial x) (g_zero x).
  (** The constructor, lines 87-96. *)
  Definition construct (field field_ft : option given) (dt : option dtype) (vectorial : option bool) : result section :=
    match field_ft, field, vectorial with
    | Some x, _, _ => Ok (set_field_ft x)
    | None, Some x, _ => Ok (set_field x)
    | None, None, Some v =>
        Ok {| s_type := match dt with Some d => d | None => Float64 end; s_vectorial := v; s_zero := true; s_pending := false |}
    | None, None, None => Err TypeError
    end.
  (** The field_ft property, lines 245-257: the state afterwards; its type is that of the result. *)
  Definition get_field_ft (s : section) : result section :=
    if s_pending s then
      bind (imul (s_type s)) (fun d =>
      Ok {| s_type := d; s_vectorial := s_vectorial s; s_zero := s_zero s; s_pending := false |})
    else Ok s.
  (** The field property, lines 185-199: the state afterwards, and the type of the result. *)
  Definition get_field (s : section) : result (section * dtype) :=
    bind (get_field_ft s) (fun s =>
    Ok (s, if single then s_type s
           else if s_zero s then s_type s
           else transformed keeps (with_complex128 (s_type s)))).

  (** The medium of [propagate]: none, one of which the refractive index is that of the background, another one that is
      uniform, and one that varies. *)
  Inductive medium : Type := NoMedium | Background | Uniform | Varying.
  (** The distance. *)
  Inductive travel : Type := Stay | Forward | Backward.
  Definition travels (d : travel) (s : section) : section :=
    {| s_type := s_type s; s_vectorial := s_vectorial s; s_zero := s_zero s;
       s_pending := s_pending s || match d with Stay => false | _ => true end |}.
  (** [propagate], lines 329-374. *)
  Definition propagate (distance : travel) (m : medium) (s : section) : result section :=
    let s := match distance with Backward => travels Backward s | _ => s end in     (* lines 355-356 *)
    let s :=
      match m with
      | NoMedium | Background => Ok s
      | Uniform =>                                                                  (* line 369 *)
          bind (imul (s_type s)) (fun d =>
          Ok {| s_type := d; s_vectorial := s_vectorial s; s_zero := s_zero s; s_pending := s_pending s |})
      | Varying =>                                                                  (* line 367 *)
          bind (get_field s) (fun '(s, d) =>
          bind (imul d) (fun d =>
          Ok (set_field {| g_type := d; g_vectorial := s_vectorial s; g_zero := s_zero s |})))
      end in
    bind s (fun s => Ok (match distance with Forward => travels Forward s | _ => s end)).   (* lines 371-372 *)

  (** What is done with a section. *)
  Inductive action : Type :=
  | SetField (x : given) | SetFieldFt (x : given) | GetField | GetFieldFt | Propagate (distance : travel) (m : medium).
  Definition act (s : section) (a : action) : result section :=
    match a with
    | SetField x => Ok (set_field x)
    | SetFieldFt x => Ok (set_field_ft x)
    | GetField => bind (get_field s) (fun '(s, _) => Ok s)
    | GetFieldFt => get_field_ft s
    | Propagate distance m => propagate distance m s
    end.
  Fixpoint acts (s : section) (l : list action) : result section :=
    match l with [] => Ok s | a :: l => bind (act s a) (fun s => acts s l) end.
End Package.
