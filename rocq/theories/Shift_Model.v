(** Model of sub-pixel shifts: python/macromax/utils/ft/subpixel.py, roll_ft (lines 283-331) and roll (lines 334-354).
    Simplified: exact numbers, without the conversions of data types of lines 327-328; the axes are distinct, as
    utils/ft/ft_implementation.py lines 20-21 requires; the fast transforms are the sums of numpy's documentation. *)
From Coq Require Import Reals List Arith Bool ZArith.
Require Import Verif.Base Verif.Cplx Verif.CSum Verif.Field Verif.Fourier_Model Verif.Vec_Model Verif.Modes_Model.
Import ListNotations.
Local Open Scope R_scope.
Local Open Scope C_scope.

(** numpy.isclose(x, 0.0). *)
Definition near_zero (x : R) : bool := Rleb (Rabs x) (/ 100000000).

(** ft.fftn and ft.ifftn along the axes where m is true. *)
Fixpoint part_ft (m : list bool) (s : list nat) (f : sfield) (q : list nat) : C :=
  match m, s, q with
  | b :: m', n :: s', i :: q' =>
      if b then csum n (fun j => cis (- (2 * PI * (INR j * INR i) / INR n)) * part_ft m' s' (fun p => f (j :: p)) q')
      else part_ft m' s' (fun p => f (i :: p)) q'
  | _, _, _ => f []
  end.
Fixpoint part_ift (m : list bool) (s : list nat) (F : sfield) (p : list nat) : C :=
  match m, s, p with
  | b :: m', n :: s', i :: p' =>
      if b then csum n (fun j => cis (2 * PI * (INR i * INR j) / INR n) * part_ift m' s' (fun q => F (j :: q)) p') / RtoC (INR n)
      else part_ift m' s' (fun q => F (i :: q)) p'
  | _, _, _ => F []
  end.

(** The index of an axis: negative ones count from the right. *)
Definition axis_number (d : nat) (a : Z) : option nat :=
  if ((0 <=? a) && (a <? Z.of_nat d))%Z then Some (Z.to_nat a)
  else if ((- Z.of_nat d <=? a) && (a <? 0))%Z then Some (Z.to_nat (a + Z.of_nat d)) else None.
Fixpoint axis_numbers (d : nat) (axes : list Z) : option (list nat) :=
  match axes with
  | [] => Some []
  | a :: axes' => match axis_number d a, axis_numbers d axes' with Some x, Some l => Some (x :: l) | _, _ => None end
  end.
(** Lines 317-319 and 347-349: the default is range(-shift.size, 0). *)
Definition chosen_axes (axes : option (list Z)) (size : nat) : list Z :=
  match axes with Some l => l | None => map (fun i => (Z.of_nat i - Z.of_nat size)%Z) (seq 0 size) end.
(** Line 322: assignment of the shifts to the axes, with broadcasting of a single shift. *)
Fixpoint lookup (axes : list nat) (shift : list R) (a : nat) : R :=
  match axes, shift with x :: axes', d :: shift' => if (x =? a)%nat then d else lookup axes' shift' a | _, _ => 0%R end.
Definition assigned (axes : list nat) (shift : list R) : result (list R) :=
  if (length shift =? length axes)%nat then Ok shift else match shift with [d] => Ok (repeat d (length axes)) | _ => Err ValueError end.
(** Lines 321-322: the shift along each axis; grid_k_step is 2 pi times this, divided by the shape. *)
Definition per_axis (d : nat) (axes : list nat) (shift : list R) : list R := map (lookup axes shift) (seq 0 d).
(** Lines 324-329: the factor at index q. The grid of line 324 has frequencies in fft-order. *)
Fixpoint turn (t : list R) (s : list nat) (q : list nat) : C :=
  match t, s, q with
  | d :: t', n :: s', i :: q' =>
      let step := (2 * PI * d / INR n)%R in
      if near_zero step then turn t' s' q' else turn t' s' q' * cis (- (step * IZR (k_index n i)))
  | _, _, _ => 1
  end.
(** roll_ft. *)
Definition roll_ft (s : list nat) (axes : option (list Z)) (shift : list R) (F : sfield) : result sfield :=
  if forallb near_zero shift then Ok F
  else match axis_numbers (length s) (chosen_axes axes (length shift)) with
       | None => Err IndexError
       | Some l => do v <- assigned l shift; Ok (fun q => F q * turn (per_axis (length s) l v) s q)
       end.
(** roll. The transforms raise an exception when there is no such axis. *)
Definition mask (d : nat) (axes : list nat) : list bool := map (fun a => existsb (Nat.eqb a) axes) (seq 0 d).
Definition roll (s : list nat) (axes : option (list Z)) (shift : list R) (f : sfield) : result sfield :=
  let chosen := chosen_axes axes (length shift) in
  match axis_numbers (length s) chosen with
  | None => Err IndexError
  | Some l => rmap (part_ift (mask (length s) l) s) (roll_ft s (Some chosen) shift (part_ft (mask (length s) l) s f))
  end.
