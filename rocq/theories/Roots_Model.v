(** Model of calc_roots_of_low_order_polynomial, evaluate_polynomial and mat3_eigh, python/macromax/backend/__init__.py lines 670-866.
    Simplified: exact complex numbers; one polynomial or matrix instead of an array of them (all operations are elementwise); a nan is None;
    the branch for three real roots (lines 809-810) is never selected by complex_root, which is always True, and is left out. *)
From Coq Require Import Reals List Arith Bool.
Require Import Verif.Base Verif.Num Verif.Cplx Verif.CSum Verif.Fourier_Model Verif.Display_Model Verif.Modes_Model.
Import ListNotations.
Local Open Scope R_scope.
Local Open Scope C_scope.

Section Roots.
  (** self.eps, lines 125-128. *)
  Variable eps : R.

  (** ** Helpers *)
  (** Lines 744-745. *)
  Definition sign1 (x : R) : C := if Rle_dec 0 x then 1 else - (1).
  (** numpy.sign, used in line 835 as self.sign. *)
  Definition sign0 (x : R) : C := if Rlt_dec 0 x then 1 else if Rlt_dec x 0 then - (1) else 0.
  (** Lines 747-748. *)
  Definition is_significant (z : C) : bool := Rltb (sqrt eps) (Cmod z).
  (** [** (1/3)] of complex numbers: the principal value. *)
  Definition ccbrt (z : C) : C :=
    if Req_EM_T (Cmod z) 0 then 0 else RtoC (Rpower (Cmod z) (/ 3)) * cis (np_angle z / 3).

  (** Lines 762-770, one pass of the loop: a negligible leading coefficient makes room for a zero at the start. *)
  Definition lower_order (l : list C) : bool := Rltb (Cmod (last l (RtoC 0))) (2 * eps).
  Definition shift_step (l : list C) : list C := if lower_order l then RtoC 0 :: removelast l else l.
  (** All passes; the result holds the coefficients, the number of added roots, and lower_order of the last pass. *)
  Fixpoint passes (n : nat) (l : list C) : list C * nat * bool :=
    match n with
    | O => (l, 0%nat, false)
    | S n' =>
        let '(l', k, _) := passes n' l in
        (shift_step l', (if lower_order l' then S k else k), lower_order l')
    end.
  (** Lines 750-773. *)
  Definition add_roots (l : list C) : list C * nat :=
    let '(l', k, low) := passes (length l) l in (if low then removelast l' ++ [RtoC 1] else l', k).

  (** Lines 787-793: the loop from the last root to the first. *)
  Fixpoint remove_zeros (X : list C) (k : nat) : list (option C) * nat :=
    match X with
    | [] => ([], k)
    | x :: X' =>
        let '(R, k') := remove_zeros X' k in
        if negb (is_significant x) && (0 <? k')%nat then (None :: R, (k' - 1)%nat) else (Some x :: R, k')
    end.
  (** numpy.sort of complex numbers: real part first, imaginary part second, nan last. *)
  Definition cleb (x y : C) : bool := Rltb (fst x) (fst y) || (if Req_EM_T (fst x) (fst y) then Rleb (snd x) (snd y) else false).
  Fixpoint insert (x : C) (l : list C) : list C :=
    match l with [] => [x] | y :: l' => if cleb x y then x :: l else y :: insert x l' end.
  Definition csort (l : list C) : list C := fold_right insert [] l.
  Definition values (l : list (option C)) : list C := flat_map (fun o => match o with Some x => [x] | None => [] end) l.
  Definition nan_sort (l : list (option C)) : list (option C) :=
    map Some (csort (values l)) ++ repeat None (length l - length (values l)).
  (** Lines 775-795. *)
  Definition remove_roots (X : list C) (k : nat) : list (option C) := nan_sort (fst (remove_zeros X k)).

  (** ** Formulas *)
  (** Lines 799-803. *)
  Definition linear (c0 c1 : C) : list C := [- c0 / c1].
  (** Lines 804-811. *)
  Definition quadratic_q (c0 c1 c2 : C) : C :=
    let sqrt_d := csqrt (c1 * c1 - RtoC 4 * c2 * c0) in
    - (1) / RtoC 2 * (c1 + sign1 (fst (Cconj c1 * sqrt_d)) * sqrt_d).
  Definition quadratic (c0 c1 c2 : C) : list C :=
    let q := quadratic_q c0 c1 c2 in
    [q / c2; c0 / (q + (if negb (is_significant c0) && negb (is_significant q) then 1 else 0))].
  (** Lines 812-843. *)
  Definition cubic_Q (a b : C) : C := a * a - b / RtoC 3.
  Definition cubic_R (a b c : C) : C := a * a * a + (- a * b + c) / RtoC 2.
  Definition cubic_A (Q R : C) : C :=
    let S := csqrt (R * R - Q * Q * Q) in - ccbrt (R + sign1 (fst (Cconj R * S)) * S).
  Definition cubic_B (Q R : C) : C :=
    let S := csqrt (R * R - Q * Q * Q) in
    let A := cubic_A Q R in
    if is_significant A then Q / A else - ccbrt (R - sign0 (fst (Cconj R * S)) * S).
  Definition cubic (c0 c1 c2 c3 : C) : list C :=
    let a := c2 / c3 / RtoC 3 in
    let b := c1 / c3 in
    let c := c0 / c3 in
    let A := cubic_A (cubic_Q a b) (cubic_R a b c) in
    let B := cubic_B (cubic_Q a b) (cubic_R a b c) in
    map (fun t : C => A * t + B * Cconj t - a) [cis (- (2 * PI / 3)); RtoC 1; cis (2 * PI / 3)].

  (** calc_roots_of_low_order_polynomial, lines 725-850. *)
  Definition roots_of (l : list C) : result (list (option C)) :=
    let '(l', k) := add_roots l in
    match l' with
    | [] | [_] => Ok []
    | [c0; c1] => Ok (remove_roots (linear c0 c1) k)
    | [c0; c1; c2] => Ok (remove_roots (quadratic c0 c1 c2) k)
    | [c0; c1; c2; c3] => Ok (remove_roots (cubic c0 c1 c2 c3) k)
    | _ => Err OtherException
    end.
  (** The content afterwards of an array passed as C whose data type is that of the back-end: astype (line 759) does not copy such an
      array, so lines 765-771 change it. *)
  Definition coefficients_after (l : list C) : list C := if (length l <? 2)%nat then l else fst (add_roots l).

  (** evaluate_polynomial, lines 852-866. *)
  Definition evaluate_polynomial (l : list C) (x : C) : C := fold_left (fun r c => r * x + c) (rev l) (RtoC 0).

  (** ** Matrices *)
  (** Lines 702-709. *)
  Definition characteristic (A : nat -> nat -> C) : list C :=
    let a00 := A 0%nat 0%nat in let a01 := A 0%nat 1%nat in let a02 := A 0%nat 2%nat in
    let a10 := A 1%nat 0%nat in let a11 := A 1%nat 1%nat in let a12 := A 1%nat 2%nat in
    let a20 := A 2%nat 0%nat in let a21 := A 2%nat 1%nat in let a22 := A 2%nat 2%nat in
    [ a00 * (a11 * a22 - a12 * a21) - a01 * (a10 * a22 - a12 * a20) + a02 * (a10 * a21 - a11 * a20);
      - a00 * (a11 + a22) + a01 * a10 + a02 * a20 - a11 * a22 + a12 * a21;
      a00 + a11 + a22;
      - (1)].
  (** mat3_eigh, lines 670-723, of an array with the given number of rows and columns at a point of the grid. The tuple that
      replaces the array in line 699 has no attribute size (line 698). *)
  Definition mat3_eigh (lead : list nat) (arr : list nat -> C) : result (list (option C)) :=
    match lead with
    | [m; n] =>
        if (m =? 3)%nat && (n =? 3)%nat then roots_of (characteristic (fun i j => arr [i; j]))
        else if (m =? 1)%nat then Ok (map (fun j => Some (arr [0%nat; j])) (seq 0 n))
        else if (n =? 1)%nat then Ok (map (fun i => Some (arr [i; 0%nat])) (seq 0 m))
        else Err ValueError
    | [] | [_] => Err AttributeError
    | _ => Err ValueError
    end.
End Roots.
