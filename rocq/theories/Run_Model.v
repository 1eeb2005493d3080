(** Model of a Solution as an object with a history: python/macromax/solver.py lines 25-89 (solve), 160-268 (the state
    that the constructor leaves), 690-832 (getters and setters of the source, the permittivity, j and E), 997-1123
    (iteration, previous_update_norm, relative_residue, __iter__, solve).
    Simplified: exact numbers; assigned arrays have the full shape (the expansion of smaller arrays is the subject of
    Array_Model); log messages are left out; norms are Python floats, so that dividing by zero raises an exception. *)
From Coq Require Import Reals List Arith ZArith Bool.
Require Import Verif.Base Verif.Cplx Verif.CSum Verif.Field Verif.Fourier_Model Verif.Vec_Model Verif.Solver_Model Verif.Derived_Model.
Import ListNotations.
Local Open Scope R_scope.
Local Open Scope C_scope.

(** A non-negative float that can be infinite. *)
Inductive ext : Type := Fin (x : R) | Inf.

(** The private attributes of a Solution. *)
Record solution : Type := {
  wavenumber : R;
  bound_chi : option sfield;        (** electric_susceptibility of the bound if this is an instance of Electric *)
  operators : ops;                  (** alpha, beta, chi.., __source_normalized *)
  field : vfield;                   (** __field_array *)
  prev_norm : ext;                  (** __previous_update_norm *)
  iteration : Z;                    (** __iteration *)
  residue_cache : option ext        (** __relative_residue *)
}.
Definition set_operators (s : solution) (o : ops) : solution :=
  {| wavenumber := wavenumber s; bound_chi := bound_chi s; operators := o; field := field s; prev_norm := prev_norm s;
     iteration := iteration s; residue_cache := residue_cache s |}.
Definition set_field (s : solution) (F : vfield) : solution :=
  {| wavenumber := wavenumber s; bound_chi := bound_chi s; operators := operators s; field := F; prev_norm := prev_norm s;
     iteration := iteration s; residue_cache := residue_cache s |}.
Definition set_prev_norm (s : solution) (x : ext) : solution :=
  {| wavenumber := wavenumber s; bound_chi := bound_chi s; operators := operators s; field := field s; prev_norm := x;
     iteration := iteration s; residue_cache := residue_cache s |}.
(** The iteration setter, lines 1006-1015. *)
Definition set_iteration (s : solution) (i : Z) : solution :=
  {| wavenumber := wavenumber s; bound_chi := bound_chi s; operators := operators s; field := field s; prev_norm := prev_norm s;
     iteration := i; residue_cache := residue_cache s |}.
Definition set_residue (s : solution) (r : option ext) : solution :=
  {| wavenumber := wavenumber s; bound_chi := bound_chi s; operators := operators s; field := field s; prev_norm := prev_norm s;
     iteration := iteration s; residue_cache := r |}.

(** The norm method, backend/__init__.py 872-874. *)
Definition norm (o : ops) (F : vfield) : R := sqrt (vnorm2 (vector_length o) (rshape (o_grid o)) F).

(** ** Getters and setters *)
(** The E property, lines 811-832. *)
Definition get_E (s : solution) : vfield := electric_field (wavenumber s) (field s).
Definition set_E (s : solution) (E : vfield) : solution :=
  set_prev_norm (set_field s (fun c p => E c p * RtoC (wavenumber s * wavenumber s))) Inf.
(** The source_distribution property, lines 691-720. *)
Definition get_source (s : solution) : vfield := source_distribution (operators s).
Definition with_source (o : ops) (S : vfield) : ops :=
  {| o_grid := o_grid o; o_vectorial := o_vectorial o; o_magnetic := o_magnetic o; o_alpha := o_alpha o; o_beta := o_beta o;
     o_chiEE := o_chiEE o; o_chiEH := o_chiEH o; o_chiHE := o_chiHE o; o_chiHH := o_chiHH o;
     o_source := fun c p => S c p * (Ci / im (o_alpha o) / RtoC (o_beta o)) |}.
Definition set_source (s : solution) (S : vfield) : solution := set_prev_norm (set_operators s (with_source (operators s) S)) Inf.
(** The j property, lines 789-809. *)
Definition get_j (u : si) (s : solution) : vfield := current_density u (operators s) (wavenumber s).
Definition set_j (u : si) (s : solution) (J : vfield) : solution := set_source s (source_of_current u (wavenumber s) J).

(** The epsilon getter, lines 732-753. *)
Definition get_epsilon (s : solution) : tensor :=
  let o := operators s in
  let b := im (o_alpha o) * RtoC (o_beta o) / Ci in
  let epsilon := tscale b (o_chiEE o) in
  let epsilon := if o_magnetic o then
      let chiHH := tscale (im (o_alpha o) / Ci) (o_chiHH o) in
      let mu := tinv (tscale (RtoC (o_beta o)) (tsub (TScalar (fun _ => 1)) chiHH)) in
      let xi := tscale Ci (tmul (tscale b (o_chiEH o)) mu) in
      tadd epsilon (tmul xi (tscale (- Ci) (tscale b (o_chiHE o))))
    else epsilon in
  match bound_chi s with None => epsilon | Some chi => tsub epsilon (TScalar chi) end.
(** The permeability and the bi-anisotropy in the epsilon setter, lines 757-772. *)
Definition stored_mu (o : ops) : tensor :=
  let chiHH := tscale (im (o_alpha o) / Ci) (o_chiHH o) in
  tinv (if o_magnetic o then tscale (RtoC (o_beta o)) (tsub (TScalar (fun _ => 1)) chiHH)
        else TScalar (fun _ => (1 - tfirst (o_grid o) chiHH) * RtoC (o_beta o))).
Definition stored_xi (o : ops) : tensor :=
  if o_magnetic o then tscale Ci (tmul (tscale (im (o_alpha o) * RtoC (o_beta o) / Ci) (o_chiEH o)) (stored_mu o))
  else TScalar (fun _ => 0).
Definition stored_zeta (o : ops) : tensor :=
  if o_magnetic o then tscale (- Ci) (tmul (stored_mu o) (tscale (im (o_alpha o) * RtoC (o_beta o) / Ci) (o_chiHE o)))
  else TScalar (fun _ => 0).
(** The epsilon setter, lines 755-787, for an Electric bound that is not Magnetic.  The decision whether the medium is
    magnetic and the constants alpha and beta of the new preconditioner are arguments. *)
Definition set_epsilon (s : solution) (epsilon : tensor) (magnetic : bool) (alpha : C) (beta : R) : solution :=
  let o := operators s in
  let epsilon := match bound_chi s with None => epsilon | Some chi => tsub epsilon (TScalar chi) end in
  set_prev_norm (set_operators s
    (prepare (o_grid o) (o_vectorial o) magnetic alpha beta epsilon (stored_xi o) (stored_zeta o) (stored_mu o) (get_source s))) Inf.

(** The constructor, lines 160-268: the susceptibility of the bound is added to the permittivity, or to
    its diagonal (tsub of its opposite); the initial field is assigned as E is. *)
Definition construct (g : raster) (vectorial magnetic : bool) (k0 : R) (alpha : C) (beta : R) (epsilon xi zeta mu : tensor) (S : vfield)
    (chi : option sfield) (initial_field : vfield) : solution :=
  let gk := {| rshape := rshape g; rstep := map (Rmult k0) (rstep g) |} in
  let epsilon := match chi with None => epsilon | Some x => tsub epsilon (TScalar (fun p => - x p)) end in
  {| wavenumber := k0; bound_chi := chi; operators := prepare gk vectorial magnetic alpha beta epsilon xi zeta mu S;
     field := fun c p => initial_field c p * RtoC (k0 * k0); prev_norm := Inf; iteration := 0; residue_cache := None |}.

(** ** Iteration *)
(** The previous_update_norm property, lines 1017-1024. *)
Definition previous_update_norm (s : solution) : ext :=
  match prev_norm s with Fin x => Fin (x / (wavenumber s * wavenumber s)) | Inf => Inf end.
(** The relative_residue property, lines 1026-1042: the value or the exception, and the object with the value cached. *)
Definition calculate_residue (s : solution) : result ext :=
  match prev_norm s with
  | Inf => if Req_EM_T (norm (operators s) (field s)) 0 then Err ZeroDivisionError else Ok Inf
  | Fin x =>
      if Rlt_dec 0 x then
        if Req_EM_T (norm (operators s) (field s)) 0 then Err ZeroDivisionError else Ok (Fin (x / norm (operators s) (field s)))
      else Ok (Fin 0)
  end.
Definition read_residue (s : solution) : solution * result ext :=
  match residue_cache s with
  | Some r => (s, Ok r)
  | None => match calculate_residue s with Ok r => (set_residue s (Some r), Ok r) | Err e => (s, Err e) end
  end.

(** One step of the generator, lines 1063-1098; [fresh] for the first step of a new iterator, which resets the counter.
    An exception leaves the object as it is at that point. *)
Definition next (fresh : bool) (s : solution) : solution * option pyexc :=
  let s := if fresh then set_iteration s 0 else s in
  let s := set_residue (set_iteration s (iteration s + 1)) None in
  let o := operators s in
  let d := update o (field s) in
  let current := norm o d in
  let accepted := set_prev_norm (set_field s (fun c p => field s c p + d c p)) (Fin current) in
  let rejected := set_operators s (update_operators o (fst (o_alpha o), (15 / 10 * snd (o_alpha o))%R)) in
  match prev_norm s with
  | Inf => (accepted, None)       (** current / inf = 0 *)
  | Fin x =>
      if Req_EM_T x 0 then (s, Some ZeroDivisionError)
      else if Rlt_dec (current / x) 1 then (accepted, None) else (rejected, None)
  end.

(** ** solve *)
(** Callbacks can have side effects, on a state of their own and on the Solution, and can raise an exception. *)
Definition callback (W : Type) : Type := W -> solution -> W * solution * result bool.
Inductive outcome (W : Type) : Type :=
| Returned (w : W) (s : solution)
| Raised (w : W) (s : solution) (e : pyexc).
Arguments Returned {W}. Arguments Raised {W}.
(** The loop of lines 1116-1121; None if it takes more than [fuel] iterations. *)
Fixpoint loop {W} (fuel : nat) (cb : callback W) (fresh : bool) (w : W) (s : solution) : option (outcome W) :=
  match fuel with
  | O => None
  | S fuel' =>
      match next fresh s with
      | (s1, Some e) => Some (Raised w s1 e)
      | (s1, None) =>
          match cb w s1 with
          | (w2, s2, Err e) => Some (Raised w2 s2 e)
          | (w2, s2, Ok true) => loop fuel' cb false w2 s2
          | (w2, s2, Ok false) => Some (Returned w2 s2)
          end
      end
  end.
(** lambda _: _.iteration < maxiter and _.residue > rtol, lines 1112-1114 and 79-81; [None] for an infinite maxiter. *)
Definition limits {W} (maxiter : option Z) (rtol : R) : callback W := fun w s =>
  if match maxiter with None => true | Some m => (iteration s <? m)%Z end then
    match read_residue s with
    | (s', Ok Inf) => (w, s', Ok true)
    | (s', Ok (Fin x)) => (w, s', Ok (if Rlt_dec rtol x then true else false))
    | (s', Err e) => (w, s', Err e)
    end
  else (w, s, Ok false).
(** The default value of the callback argument, lines 1100 and 33. *)
Definition default_callback {W} : callback W := limits (Some 10000%Z) (/ 10000).
(** The callback argument: left out, None, or a function. *)
Inductive callback_arg (W : Type) : Type := Missing | NoneGiven | Given (cb : callback W).
Arguments Missing {W}. Arguments NoneGiven {W}. Arguments Given {W}.
Definition chosen {W} (cb : callback_arg W) (rtol : R) (maxiter : option Z) : callback W :=
  match cb with Missing => default_callback | NoneGiven => limits maxiter rtol | Given f => f end.
(** Solution.solve, lines 1100-1123. *)
Definition solve_method {W} (fuel : nat) (s : solution) (cb : callback_arg W) (rtol : R) (maxiter : option Z) (w : W) : option (outcome W) :=
  loop fuel (chosen cb rtol maxiter) true w s.
(** The function solve, lines 25-89: it replaces None before it calls the method without rtol and maxiter. *)
Definition solve_function {W} (fuel : nat) (s : solution) (cb : callback_arg W) (rtol : R) (maxiter : option Z) (w : W) : option (outcome W) :=
  let cb := match cb with Missing => default_callback | NoneGiven => limits maxiter rtol | Given f => f end in
  solve_method fuel s (Given cb) 0 None w.

(** ** Histories: what the user of a Solution can do *)
Inductive op : Type :=
| ONext (fresh : bool)
| OSetE (E : vfield)
| OSetSource (src : vfield)
| OSetJ (J : vfield)
| OSetEpsilon (epsilon : tensor) (magnetic : bool) (alpha : C) (beta : R)
| OSetIteration (i : Z)
| OReadResidue.
Definition perform (u : si) (s : solution) (a : op) : solution :=
  match a with
  | ONext fresh => fst (next fresh s)
  | OSetE E => set_E s E
  | OSetSource src => set_source s src
  | OSetJ J => set_j u s J
  | OSetEpsilon epsilon magnetic alpha beta => set_epsilon s epsilon magnetic alpha beta
  | OSetIteration i => set_iteration s i
  | OReadResidue => fst (read_residue s)
  end.
Definition history (u : si) (l : list op) (s : solution) : solution := fold_left (perform u) l s.
