(** Model of InterpolatedColorMap: python/macromax/utils/display/colormap.py lines 33-40, for numbers of any kind, and of what the LinearSegmentedColormap of
    matplotlib, of which it is a subclass, does with its argument when the colour map is used.
    Simplified: matplotlib is represented by its documented behaviour: it checks the data, and makes a table of K colours by linear interpolation; the names of
    the channels are fields. *)
From Coq Require Import List Arith ZArith Bool.
Require Import Verif.Base Verif.Num.
Import ListNotations.

Section Colormap.
  Variable N : num.
  (** The rows x, y0, y1 of the argument of LinearSegmentedColormap. *)
  Definition row : Type := (N * N * N)%type.
  Record cdict : Type := { red : list row; green : list row; blue : list row; alpha : option (list row) }.
  (** Line 36, for n colours. *)
  Definition default_points (n : nat) : list N := map (fun i => ndiv N (nofZ N (Z.of_nat i)) (nofZ N (Z.of_nat n - 1))) (seq 0 n).
  (** Line 37: np.stack of columns of the same length. *)
  Definition stack (points c : list N) : result (list row) :=
    if (length points =? length c)%nat then Ok (map (fun xy => (fst xy, snd xy, snd xy)) (combine points c)) else Err ValueError.
  (** colors[:, k], for an array of n rows and m columns. *)
  Definition column (n m : nat) (colors : nat -> nat -> N) (k : nat) : result (list N) :=
    if (k <? m)%nat then Ok (map (fun i => colors i k) (seq 0 n)) else Err IndexError.
  (** InterpolatedColorMap(name, colors, points), lines 33-40. *)
  Definition interpolated (n m : nat) (colors : nat -> nat -> N) (points : option (list N)) : result cdict :=
    let points := match points with None => default_points n | Some l => l end in
    let channel k := do c <- column n m colors k; stack points c in
    do r <- channel 0%nat; do g <- channel 1%nat; do b <- channel 2%nat;
    if (3 <? m)%nat then do a <- channel 3%nat; Ok {| red := r; green := g; blue := b; alpha := Some a |}
    else Ok {| red := r; green := g; blue := b; alpha := None |}.

  (** The values x of the rows. *)
  Definition xs (l : list row) : list N := map (fun r => fst (fst r)) l.
  Definition y0 (l : list row) (i : nat) : N := snd (fst (nth i l (nofZ N 0, nofZ N 0, nofZ N 0))).
  Definition y1 (l : list row) (i : nat) : N := snd (nth i l (nofZ N 0, nofZ N 0, nofZ N 0)).
  Fixpoint decreases (l : list N) : bool :=
    match l with x :: (y :: _) as l' => nltb (nsub N y x) (nofZ N 0) || decreases l' | _ => false end.
  (** What matplotlib requires: the values x start with 0, end with 1, and do not decrease. *)
  Definition check (l : list row) : result unit :=
    match xs l with
    | [] => Err IndexError
    | x :: _ =>
        if negb (neqb N x (nofZ N 0)) || negb (neqb N (last (xs l) x) (nofZ N 1)) then Err ValueError
        else if decreases (xs l) then Err ValueError else Ok tt
    end.
  (** np.searchsorted: the first index of a value that is not less than v. *)
  Fixpoint search (l : list N) (v : N) : nat := match l with [] => 0%nat | x :: l' => if nltb x v then Datatypes.S (search l' v) else 0%nat end.
  Definition clip01 (x : N) : N := nmin (nmax x (nofZ N 0)) (nofZ N 1).
  (** Element j of the table of K values. *)
  Definition table (K : nat) (l : list row) (j : nat) : N :=
    if (j =? 0)%nat then clip01 (y1 l 0)
    else if (j =? K - 1)%nat then clip01 (y0 l (length l - 1))
    else
      let x i := nmul N (nth i (xs l) (nofZ N 0)) (nofZ N (Z.of_nat K - 1)) in
      let v := nofZ N (Z.of_nat j) in
      let i := search (map (fun x => nmul N x (nofZ N (Z.of_nat K - 1))) (xs l)) v in
      let distance := ndiv N (nsub N v (x (i - 1)%nat)) (nsub N (x i) (x (i - 1)%nat)) in
      clip01 (nadd N (nmul N distance (nsub N (y0 l i) (y1 l (i - 1)%nat))) (y1 l (i - 1)%nat)).
  (** The red, green, blue, and alpha values of colour j of K; or the exception when the colour map is used. *)
  Definition colour (K : nat) (c : cdict) (j : nat) : result (N * N * N * N) :=
    do _ <- check (red c); do _ <- check (green c); do _ <- check (blue c);
    do a <- match alpha c with None => Ok (nofZ N 1) | Some l => do _ <- check l; Ok (table K l j) end;
    Ok (table K (red c) j, table K (green c) j, table K (blue c) j, a).
End Colormap.
