(** Model of the media that the user gives to Beam.field: python/macromax/utils/beam.py lines 329-374 (propagate) and 465-508 (__iter__ and field), from the
    arguments as they are given to the slices of Beam_Model.
    Simplified: exact numbers; functions are those that numpy evaluates elementwise, and their values have the shape of the section; arrays have elements,
    slices have at most three axes (no polarization axis), and iterables are lists. *)
From Coq Require Import Reals List Arith ZArith Bool.
Require Import Verif.Base Verif.Num Verif.Grid_Model Verif.Entry_Model.
Require Import Verif.Cplx Verif.CSum Verif.Field Verif.Fourier_Model Verif.Vec_Model Verif.Modes_Model Verif.Array_Model Verif.Beam_Model Verif.Launch_Model.
Import ListNotations.
Local Open Scope R_scope.

(** A slice: a number, an array, or a function with n parameters. *)
Inductive slice_arg : Type :=
| SNumber (x : C)
| SArray (a : array)
| SFunction (n : nat) (f : list R -> C).
(** The argument permittivity or refractive_index of field: a sequence of slices, or an array, of which zip iterates over the first axis. *)
Inductive media_arg : Type :=
| MSequence (l : list slice_arg)
| MVolume (a : array).
(** iter(x): an array without axes cannot be iterated over. *)
Definition parts (x : media_arg) : result (list slice_arg) :=
  match x with
  | MSequence l => Ok l
  | MVolume a => match ashape a with [] => Err TypeError | n :: s => Ok (map (fun i => SArray (Arr s (fun p => aget a (i :: p)))) (seq 0 n)) end
  end.
(** Lines 344-351: callables are called with the three coordinates of the section. *)
Definition slice_array (h : grid RN) (gs : list nat) (x : slice_arg) : result array :=
  match x with
  | SNumber x => Ok (number x)
  | SArray a => Ok a
  | SFunction n f => if (n =? 3)%nat then do xs <- items h; Ok (Arr gs (fun p => f (map (fun c => at_index c p) xs))) else Err TypeError
  end.
(** Lines 357-366: all values as the first, or an in-place product with the field. *)
Definition same_values (a : array) : bool :=
  let x := aget a (map (fun _ => 0%nat) (ashape a)) in
  forallb (fun q => Rleb (Cmod (aget a q - x)%C) (/ 100000000 + / 100000 * Cmod x)) (indices (ashape a)).
Definition index_field (gs : list nat) (a : array) : result sfield :=
  if (adim a <=? length gs)%nat && fits_in (lpad (length gs) (ashape a)) gs then Ok (fun p => bget a p)
  else if same_values a then Ok (fun _ => aget a (map (fun _ => 0%nat) (ashape a)))
  else Err ValueError.
(** propagate, lines 344-351: the refractive index, the square root of the permittivity, or the background. *)
Definition slice_medium (h : grid RN) (gs : list nat) (p n : option slice_arg) : result (option sfield) :=
  match n, p with
  | Some y, _ => do a <- slice_array h gs y; do m <- index_field gs a; Ok (Some m)
  | None, Some x => do a <- slice_array h gs x; do m <- index_field gs (amap csqrt a); Ok (Some m)
  | None, None => Ok None
  end.
(** __iter__, lines 479-482: as many times None as there are slices if nothing is given. *)
Definition media_list (n : nat) (x : option media_arg) : result (list (option slice_arg)) :=
  match x with None => Ok (repeat None n) | Some y => do l <- parts y; Ok (map Some l) end.
(** The loops of lines 488-489 and 506-507: the i-th medium is read, then the i-th slice of the output must exist. *)
Fixpoint media_of (h : grid RN) (gs : list nat) (n i : nat) (l : list (option slice_arg * option slice_arg)) : result (list (option sfield)) :=
  match l with
  | [] => Ok []
  | (p, y) :: l' =>
      do m <- slice_medium h gs p y;
      if (n <=? i)%nat then Err IndexError else do ms <- media_of h gs n (Datatypes.S i) l'; Ok (m :: ms)
  end.
(** Beam( ... ).field(permittivity, refractive_index): all slices of the output, which line 504 sets to 0. *)
Definition beam_media (l : beam_args) (permittivity refractive_index : option media_arg) : result (list vfield) :=
  do r <- launch l;
  let G := fst r in let b := fst (snd r) in
  do h <- slice G (baxis b);
  let n := Z.to_nat (shape RN G (baxis b)) in
  do ps <- media_list n permittivity;
  do ns <- media_list n refractive_index;
  do ms <- media_of h (Beam_Model.bshape b) n 0 (combine ps ns);
  let fs := fst (beam_field b (snd (snd r)) (at_ RN (step RN G) (baxis b)) ms) in
  Ok (fs ++ repeat (fun _ _ => RtoC 0) (n - length fs)).
