(** Model of python/macromax/utils/stop_criterion.py, class [Adaptive] (lines 7-52).

    Residues are real numbers: rounding is not modelled.  The residue is a numpy float64 when it is divided
    (line 45), so a division by zero does not raise but gives an infinity or nan. *)
From Coq Require Import Reals.
From Flocq Require Import Core.Raux.
From Verif Require Import Base.
Local Open Scope R_scope.

(** The object attributes: lines 19-27. [checks] is [self.__iterations], [res0], [res1] are [self.__residues]. *)
Record adaptive : Type := {
  target : R; cap : Z;
  it0 : Z; it1 : Z;
  res0 : R; res1 : R;
  previous : option Z
}.

(** [Adaptive(residue, iteration)], lines 13-27. *)
Definition make (residue : R) (iteration : Z) : adaptive :=
  {| target := residue; cap := iteration; it0 := 1; it1 := 1; res0 := 1; res1 := 1; previous := None |}.

(** [int(estimated_iterations_left + 0.5)], lines 45, 46 and 49, for non-negative residues [r0], [r1] with
    [r1 >= tgt].  With numpy scalars: log(rate) = log(r1 / r0) / (i1 - i0);
    - a negative target gives log(negative) = nan, and int(nan) raises ValueError;
    - a zero target gives log(0) = -inf, and int(+-inf) raises OverflowError, unless 0/0 or inf/inf makes it nan;
    - r0 = 0 < r1 makes the rate infinite and the quotient (minus) zero;
    - r1 = r0 makes the rate 1 and its logarithm 0: log(tgt / r1) / 0.0 is -inf, or nan for r1 = tgt. *)
Definition estimate (tgt r0 r1 : R) (di : Z) : result Z :=
  if Rlt_dec tgt 0 then Err ValueError
  else if Req_EM_T tgt 0 then
    (if Req_EM_T r1 0 then Err ValueError else if Req_EM_T r0 0 then Err ValueError else Err OverflowError)
  else if Req_EM_T r0 0 then Ok 0%Z
  else if Req_EM_T r1 r0 then (if Req_EM_T r1 tgt then Err ValueError else Err OverflowError)
  else Ok (Ztrunc (ln (tgt / r1) / (ln (r1 / r0) / IZR di) + / 2)).

(** [__call__], lines 29-52: returns the updated object and True (continue) or False (stop). *)
Definition call (a : adaptive) (iteration : Z) (residue : R) : adaptive * result bool :=
  let reset := match previous a with Some p => (iteration <? p)%Z | None => false end in
  let i0 := if reset then 1%Z else it0 a in
  let i1 := if reset then 1%Z else it1 a in
  let far := (Z.max i0 i1 <? iteration)%Z in
  let i0 := if far then (iteration + 25)%Z else i0 in
  let i1 := if far then (iteration + 50)%Z else i1 in
  let st i0 i1 r0 r1 :=
    {| target := target a; cap := cap a; it0 := i0; it1 := i1; res0 := r0; res1 := r1; previous := Some iteration |} in
  if (iteration =? i0)%Z then (st i0 i1 residue (res1 a), Ok true)
  else if (iteration =? i1)%Z then
    if Rlt_dec residue (target a) then (st i0 i1 (res0 a) residue, Ok false)
    else match estimate (target a) (res0 a) residue (i1 - i0) with
         | Err e => (st i0 i1 (res0 a) residue, Err e)
         | Ok n => (st i1 (iteration + Z.min (Z.max 1 n) iteration)%Z residue residue, Ok true)
         end
  else if (cap a <=? iteration)%Z then (st i0 i1 (res0 a) (res1 a), Ok false)
  else (st i0 i1 (res0 a) (res1 a), Ok true).

(** Calling the object after iterations 1, 2, 3, ..., n of a run with the residues [r 1], [r 2], ... as long as it
    returns True: [Solution.solve], solver.py lines 1100-1123.  [run a r n] is the state after those calls and the
    outcome of the last one (True when no call was made). *)
Fixpoint run (a : adaptive) (r : nat -> R) (n : nat) : adaptive * result bool :=
  match n with
  | O => (a, Ok true)
  | S m =>
      match run a r m with
      | (a, Ok true) => call a (Z.of_nat n) (r n)
      | stopped => stopped
      end
  end.
