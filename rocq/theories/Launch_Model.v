(** Model of the constructors of Beam and BeamSection: python/macromax/utils/beam.py lines 19-96 and 378-413, from the arguments as the user gives them to
    the objects of Beam_Model, and of the arguments of field and propagate.
    Simplified: exact numbers; functions are those that numpy evaluates elementwise, and their values have the shape of the grid; the spectrum is given
    as an array; arrays have at most four axes and 1 or 3 components. *)
From Coq Require Import Reals List Arith ZArith Bool.
Require Import Verif.Base Verif.Num Verif.Grid_Model Verif.Entry_Model.
Require Import Verif.Cplx Verif.CSum Verif.Field Verif.Fourier_Model Verif.Vec_Model Verif.Modes_Model Verif.Array_Model Verif.Beam_Model.
Import ListNotations.
Local Open Scope R_scope.

(** [*([x] * (3 - grid.ndim)), *values], lines 53-58 and 400-403. *)
Definition pad3 {A} (nd : nat) (x : A) (l : list A) : list A := repeat x (3 - nd) ++ l.
(** values[a] = x. *)
Definition put {A} (a : nat) (x : A) (l : list A) : list A := firstn a l ++ x :: skipn (Datatypes.S a) l.
(** The arguments of the constructor of Grid in lines 59 and 404. *)
Definition plain_args (d : dt) (sh st : list R) (dc : dt) (ce : list R) : args RN :=
  {| a_shape := Some (AVector RN DInt sh); a_step := Some (AVector RN d st); a_extent := None; a_first := None; a_center := Some (AVector RN dc ce);
     a_last := None; a_include_last := BScalar false; a_ndim := None; a_flat := BScalar false; a_origin_at_center := BScalar true; a_center_at_index := BScalar true |}.
Definition shapes (g : grid RN) : list R := map (fun i => IZR (shape RN g i)) (axes (ndim RN g)).
Definition steps (g : grid RN) : list R := map (at_ RN (step RN g)) (axes (if short_step RN g then 1 else ndim RN g)%nat).
Definition centers (g : grid RN) : list R := map (at_ RN (center RN g)) (axes (ndim RN g)).
(** Beam, lines 400-404. *)
Definition expand (g : grid RN) : result (grid RN) :=
  construct RN (plain_args (tag RN (step RN g)) (pad3 (ndim RN g) 1 (shapes g)) (pad3 (ndim RN g) 0 (steps g)) (tag RN (center RN g)) (pad3 (ndim RN g) 0 (centers g))).
(** BeamSection, lines 52-59. *)
Definition slice (g : grid RN) (a : nat) : result (grid RN) :=
  construct RN (plain_args (tag RN (step RN g)) (put a 1 (pad3 (ndim RN g) 1 (shapes g))) (pad3 (ndim RN g) 0 (steps g)) DFlt (put a 0 (pad3 (ndim RN g) 0 (centers g)))).
(** The propagation axis of a section, line 52, and of a beam, line 400, as an index from the left: line 52 subtracts 3 again. *)
Definition section_axis (a : option Z) : nat := Z.to_nat (match a with Some z => z mod 3 | None => 0 mod 3 end)%Z.
Definition beam_axis (nd : nat) (a : option Z) : nat :=
  section_axis (Some ((match a with Some z => z mod Z.of_nat nd | None => 0 end) - Z.of_nat nd)%Z).
(** The wavenumber and the refractive index: lines 66-71. *)
Definition vacuum_k (wavelength : option C) (wavenumber : C) : C := match wavelength with Some l => (RtoC (2 * PI) / l)%C | None => wavenumber end.
Definition background_n (index : option C) (permittivity : C) : C := match index with Some n => n | None => csqrt permittivity end.
(** Lines 59-84: what does not change. *)
Definition section_setup (h : grid RN) (a : nat) (k n : C) (comps : nat) : setup :=
  {| bgrid := {| rshape := map (fun i => Z.to_nat (shape RN h i)) (seq 0 3); rstep := map (at_ RN (step RN h)) (seq 0 3) |};
     bfirst := first RN h; bk := k; bn := n; baxis := a; bcomp := comps |}.

(** The argument field: an array, or a function of the last n coordinates, that returns numbers or 3-vectors. *)
Inductive field_arg : Type :=
| FArray (a : array)
| FFunction (n : nat) (f : list R -> C)
| FVector (n : nat) (f : list R -> nat -> C).
(** Lines 213-216, with the transverse grid of lines 103-113, which is that of the section. *)
Definition last_axes (h : grid RN) (n : nat) : result (list coords) :=
  do xs <- items h; if ((1 <=? n) && (n <=? 3))%nat then Ok (skipn (length xs - n) xs) else Err TypeError.
Definition field_array (h : grid RN) (gs : list nat) (x : field_arg) : result array :=
  match x with
  | FArray a => Ok a
  | FFunction n f => do xs <- last_axes h n; Ok (Arr gs (fun p => f (map (fun c => at_index c p) xs)))
  | FVector n f => do xs <- last_axes h n; Ok (Arr (3%nat :: gs) (fun p => f (map (fun c => at_index c (tl p)) xs) (nth 0 p 0%nat)))
  end.
(** Lines 217-223 and 284-290: singleton axes on the left, and broadcasting of all but the first. *)
Definition components (a : array) : nat := nth 0 (lpad 4 (ashape a)) 1%nat.
Definition values (gs : list nat) (a : array) : result (nat * vfield) :=
  if (4 <? adim a)%nat then Err ValueError
  else
    let n := components a in
    if ((n =? 1) || (n =? 3))%nat && fits_in (tl (lpad 4 (ashape a))) gs then Ok (n, fun c p => bget a (c :: p)) else Err ValueError.

(** The arguments of Beam, lines 378-381. *)
Record beam_args : Type := {
  l_grid : grid RN; l_axis : option Z; l_wavenumber : C; l_wavelength : option C; l_permittivity : C; l_index : option C;
  l_field : option field_arg; l_spectrum : option array
}.
(** Lines 86-96: the first state; TypeError without field. *)
Definition start (h : grid RN) (a : nat) (k n : C) (field : option field_arg) (spectrum : option array) : result (setup * section) :=
  let gs := rshape (bgrid (section_setup h a k n 1)) in
  match spectrum, field with
  | Some x, _ => do nf <- values gs x; let b := section_setup h a k n (fst nf) in Ok (b, set_ft b (snd nf))
  | None, Some x => do y <- field_array h gs x; do nf <- values gs y; let b := section_setup h a k n (fst nf) in Ok (b, set_field b (snd nf))
  | None, None => Err TypeError
  end.
(** The constructor of Beam, lines 399-413: the grid, the section, and its first state. *)
Definition launch (l : beam_args) : result (grid RN * (setup * section)) :=
  do G <- expand (l_grid l);
  let a := beam_axis (ndim RN (l_grid l)) (l_axis l) in
  do h <- slice G a;
  let n := background_n (l_index l) (l_permittivity l) in
  do bs <- start h a (vacuum_k (l_wavelength l) (l_wavenumber l) * n)%C n (l_field l) (l_spectrum l);
  Ok (G, (fst bs, enter (fst bs) (snd bs) (first RN G a) (at_ RN (step RN G) a))).
(** Beam( ... ).field() and Beam( ... ).field(refractive_index=media), lines 465-508. *)
Definition beam_result (l : beam_args) (media : option (list sfield)) : result (list vfield) :=
  do r <- launch l;
  let G := fst r in let b := fst (snd r) in
  let n := Z.to_nat (shape RN G (baxis b)) in
  Ok (fst (beam_field b (snd (snd r)) (at_ RN (step RN G) (baxis b))
    (match media with None => background n | Some ms => map Some (firstn n ms) end))).
