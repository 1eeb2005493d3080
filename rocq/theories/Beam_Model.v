(** Model of python/macromax/utils/beam.py: BeamSection (lines 18-374) and Beam (lines 377-512).
    Simplified: exact numbers; the grid has three axes (lines 52-59 and 399-404 add singleton axes on the left) and is given by
    shape, step and first position; fields have the shape of the section, broadcasting and callables are left out; the
    transform over the axes with more than one point is that over all axes, with one point on the others; the fast transforms
    are the sums of numpy's documentation; the propagator cache of line 234 returns the same values. *)
From Coq Require Import Reals List Arith Bool.
Require Import Verif.Base Verif.Cplx Verif.CSum Verif.Field Verif.Fourier_Model Verif.Vec_Model Verif.Modes_Model.
Import ListNotations.
Local Open Scope R_scope.
Local Open Scope C_scope.

(** exp(z). *)
Definition cexp (z : C) : C := RtoC (exp (fst z)) * cis (snd z).

(** What does not change: the grid of a section (lines 52-59, one point along the propagation axis) and its first positions, the
    wavenumber in the background and its refractive index (lines 64-70, 162-166), the propagation axis, and the number of
    components: 1 or 3. *)
Record setup : Type := { bgrid : raster; bfirst : nat -> R; bk : C; bn : C; baxis : nat; bcomp : nat }.
Definition bshape (b : setup) : list nat := rshape (bgrid b).

(** k_projs, lines 78-81. *)
Definition k_proj_t (b : setup) (c : nat) (q : list nat) : C := if (c =? baxis b)%nat then 0 else RtoC (kvec (bgrid b) c q) / bk b.
Definition k_proj (b : setup) (c : nat) (q : list nat) : C :=
  if (c =? baxis b)%nat then RtoC (fst (csqrt (1 - csum 3 (fun i => k_proj_t b i q * k_proj_t b i q)))) else k_proj_t b c q.
(** k_dir, lines 82-84. *)
Definition k_dir (b : setup) (c : nat) (q : list nat) : C :=
  k_proj b c q / RtoC (sqrt (rsum 3 (fun i => Cmod (k_proj b i q) * Cmod (k_proj b i q))%R)).
(** shift_ft, line 62. *)
Definition shift_ft (b : setup) (q : list nat) : C := cis (rsum 3 (fun c => kvec (bgrid b) c q * bfirst b c)%R).
(** __calc_propagator_ft, lines 237-246. *)
Definition propagator (b : setup) (d : R) (q : list nat) : C := cexp (Ci * RtoC d * bk b * k_dir b (baxis b) q).

(** numpy.isclose(x, 0.0) and numpy.allclose(x, 0.0). *)
Definition tiny (x : R) : bool := Rleb x (/ 100000000).
Definition negligible (b : setup) (F : vfield) : bool :=
  forallb (fun c => forallb (fun q => tiny (Cmod (F c q))) (indices (bshape b))) (seq 0 (bcomp b)).
Definition extended (b : setup) : bool := existsb (fun n => (1 <? n)%nat) (bshape b).

(** The state of a BeamSection: lines 73-74. *)
Record section : Type := { field_hat : vfield; pending : R }.
(** What reading field_ft does to the state, lines 245-257; it returns field_hat afterwards. *)
Definition settle (b : setup) (s : section) : section :=
  if tiny (Rabs (pending s)) then s
  else {| field_hat := fun c q => field_hat s c q * propagator b (pending s) q; pending := 0 |}.
Definition read_ft (b : setup) (s : section) : vfield := field_hat (settle b s).
(** The field, lines 185-199; the state changes as for field_ft. *)
Definition read_field (b : setup) (s : section) : vfield := fun c p =>
  if extended b then
    if negligible b (read_ft b s) then 0 else ift (bshape b) (fun q => read_ft b s c q * shift_ft b q) p
  else read_ft b s c p.
(** __transverse_projection_field_ft, lines 299-318. *)
Definition project (b : setup) (F : vfield) : vfield := fun c q =>
  if (1 <? bcomp b)%nat then F c q - k_dir b c q * csum 3 (fun i => k_dir b i q * F i q) else F c q.
(** The setter of field_ft and __update_field_ft, lines 259-294 and 319-327. *)
Definition set_ft (b : setup) (F : vfield) : section := {| field_hat := project b F; pending := 0 |}.
(** The setter of field, lines 201-231. *)
Definition set_field (b : setup) (f : vfield) : section :=
  if extended b then set_ft b (fun c q => ft (bshape b) (f c) q * Cconj (shift_ft b q)) else set_ft b f.

(** propagate, lines 329-374; the medium is given by the refractive index at each point. *)
Definition origin : list nat := [0; 0; 0]%nat.
Definition uniform (b : setup) (n : sfield) : bool :=
  forallb (fun q => Rleb (Cmod (n q - n origin)%C) (/ 100000000 + / 100000 * Cmod (n origin))) (indices (bshape b)).
Definition move (s : section) (d : R) : section := {| field_hat := field_hat s; pending := (pending s + d)%R |}.
Definition excess (b : setup) (x : C) : C := x / bn b - 1.
Definition interact (b : setup) (s : section) (d : R) (n : sfield) : section :=
  if uniform b n then
    if tiny (Cmod (excess b (n origin))) then s
    else {| field_hat := fun c q => field_hat s c q * cexp (Ci * bk b * excess b (n origin) * RtoC d); pending := pending s |}
  else set_field b (fun c p => read_field b s c p * cexp (Ci * bk b * excess b (n p) * RtoC d)).
Definition propagate (b : setup) (s : section) (d : R) (medium : option sfield) : section :=
  let s1 := if Rltb d 0 then move s d else s in
  let s2 := match medium with None => s1 | Some n => interact b s1 d n end in
  if Rltb 0 d then move s2 d else s2.
(** Lines 344-347: the refractive index for a permittivity. *)
Definition index_of (epsilon : sfield) : sfield := fun p => csqrt (epsilon p).

(** ** Histories of a section *)
Inductive action : Type :=
| Propagate (d : R) (medium : option sfield) | ReadFt | ReadField | SetFt (F : vfield) | SetField (f : vfield).
Definition act (b : setup) (s : section) (a : action) : section :=
  match a with
  | Propagate d m => propagate b s d m
  | ReadFt | ReadField => settle b s
  | SetFt F => set_ft b F
  | SetField f => set_field b f
  end.
Definition run (b : setup) (s : section) (l : list action) : section := fold_left (act b) l s.

(** ** Beam *)
(** The constructor, lines 405-413: back to one step before the first slice. *)
Definition enter (b : setup) (s : section) (first step : R) : section := propagate b s (first - step) None.
(** field, lines 491-508, which iterates as in lines 465-489: propagate through a slice, then read the field. Also the section afterwards. *)
Fixpoint beam_field (b : setup) (s : section) (step : R) (media : list (option sfield)) : list vfield * section :=
  match media with
  | [] => ([], s)
  | m :: media' =>
      let s1 := propagate b s step m in
      let rest := beam_field b (settle b s1) step media' in (read_field b s1 :: fst rest, snd rest)
  end.
(** Iteration without reading, lines 465-489 and beam_section_at_exit, lines 445-463. *)
Definition traverse (b : setup) (s : section) (step : R) (media : list (option sfield)) : section :=
  fold_left (fun s m => propagate b s step m) media s.
(** The default arguments, lines 479-482: no medium for each slice. *)
Definition background (n : nat) : list (option sfield) := repeat None n.
(** The sections that an iteration yields are all the same object: what list(beam) shows afterwards. *)
Definition collected (b : setup) (s : section) (step : R) (media : list (option sfield)) : list vfield :=
  map (fun _ => read_field b (traverse b s step media)) media.
