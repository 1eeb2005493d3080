(** Model of python/macromax/utils/ft/grid.py: class [Grid] (lines 17-649).

    Numbers come from a record of operations [N]: exact ones in most theorems, double precision ones in Float_Model.v
    (complex coordinates are not modelled).  A numpy vector with one entry per axis is a function from the axis index
    together with a tag that
    says whether its dtype is an integer or a floating point type, because the constructor decides on casts by dtype.
    Where numpy divides by zero it goes on with inf or nan; this is not modelled and gives [Err OtherException]. *)
From Verif Require Import Base Num.

Inductive dt : Type := DInt | DFlt.
Definition join (a b : dt) : dt := match a, b with DInt, DInt => DInt | _, _ => DFlt end.
Definition is_int (a : dt) : bool := match a with DInt => true | DFlt => false end.

Section Grid.
  Variable N : num.
  Local Notation "0" := (nofZ N 0%Z).
  Local Notation "1" := (nofZ N 1%Z).
  Local Notation "2" := (nofZ N 2%Z).
  Local Notation "# z" := (nofZ N z) (at level 0).
  Local Infix "+" := (nadd N).
  Local Infix "-" := (nsub N).
  Local Infix "*" := (nmul N).
  Local Infix "/" := (ndiv N).
  Local Infix "=?" := (neqb N).
  Local Infix "<=?" := (nleb N).

  (** A vector with one number per axis. *)
  Record vec : Type := { tag : dt; at_ : nat -> N }.

  (** Python arguments: a scalar or a sequence of numbers (or of booleans). *)
  Inductive arg : Type :=
  | AScalar : dt -> N -> arg
  | AVector : dt -> list N -> arg.
  Inductive barg : Type :=
  | BScalar : bool -> barg
  | BVector : list bool -> barg.

  Record args : Type := {
    a_shape : option arg; a_step : option arg; a_extent : option arg; a_first : option arg;
    a_center : option arg; a_last : option arg;
    a_include_last : barg; a_ndim : option nat; a_flat : barg; a_origin_at_center : barg; a_center_at_index : barg
  }.

  (** [np.array(arg).size] and [np.isscalar] *)
  Definition arg_size (a : arg) : nat := match a with AScalar _ _ => 1%nat | AVector _ l => length l end.
  Definition is_vector (a : option arg) : bool := match a with Some (AVector _ _) => true | _ => false end.

  (** Lines 69-83. *)
  Definition ndim_of (a : args) : nat :=
    match a_ndim a with
    | Some n => n
    | None =>
        let sz x := match x with Some v => arg_size v | None => O end in
        Nat.max (Nat.max (Nat.max (sz (a_shape a)) (sz (a_step a))) (Nat.max (sz (a_extent a)) (sz (a_first a))))
                (Nat.max (sz (a_center a)) (sz (a_last a)))
    end.

  (** Lines 87-88. *)
  Definition multidimensional_of (a : args) : bool :=
    is_vector (a_shape a) || is_vector (a_step a) || is_vector (a_extent a) ||
    is_vector (a_first a) || is_vector (a_center a) || is_vector (a_last a).

  (** [_to_ndim], lines 632-643. *)
  Definition to_ndim (n : nat) (a : arg) : result vec :=
    match a with
    | AScalar d x => Ok {| tag := d; at_ := fun _ => x |}
    | AVector d [x] => Ok {| tag := d; at_ := fun _ => x |}
    | AVector d l =>
        if Nat.eqb (length l) n then Ok {| tag := d; at_ := fun i => nth i l 0 |} else Err ValueError
    end.
  Definition to_ndim_opt (n : nat) (a : option arg) : result (option vec) :=
    match a with None => Ok None | Some a => rmap Some (to_ndim n a) end.
  Definition to_ndim_b (n : nat) (a : barg) : result (nat -> bool) :=
    match a with
    | BScalar b => Ok (fun _ => b)
    | BVector [b] => Ok (fun _ => b)
    | BVector l => if Nat.eqb (length l) n then Ok (fun i => nth i l false) else Err ValueError
    end.

  (** Elementwise numpy operations and their result type. *)
  Definition vadd (a b : vec) : vec := {| tag := join (tag a) (tag b); at_ := fun i => at_ a i + at_ b i |}.
  Definition vsub (a b : vec) : vec := {| tag := join (tag a) (tag b); at_ := fun i => at_ a i - at_ b i |}.
  Definition vmul (a b : vec) : vec := {| tag := join (tag a) (tag b); at_ := fun i => at_ a i * at_ b i |}.
  Definition vconst (d : dt) (x : N) : vec := {| tag := d; at_ := fun _ => x |}.
  Definition axes (n : nat) : list nat := seq 0%nat n.
  Definition vall (n : nat) (p : nat -> bool) : bool := forallb p (axes n).
  (** True division; see the remark on zero divisors at the top. *)
  Definition vdiv (n : nat) (a b : vec) : result vec :=
    if vall n (fun i => negb (at_ b i =? 0))
    then Ok {| tag := DFlt; at_ := fun i => at_ a i / at_ b i |}
    else Err OtherException.

  (** [np.allclose(a, b)] with the default rtol=1e-5, atol=1e-8. *)
  Definition isclose (x y : N) : bool :=
    nabs (x - y) <=? (1 / # 100000000 + 1 / # 100000 * nabs y).
  Definition allclose (n : nat) (a b : nat -> N) : bool := vall n (fun i => isclose (a i) (b i)).

  (** [if ref.dtype != v.dtype and np.allclose(v, np.round(v)): v = v.astype(int)] where [v] is floating point:
      lines 141-142, 152-153, 157-158, 172-173 and 177-178; [astype] truncates. *)
  Definition cast_back (n : nat) (ref_tag : dt) (v : vec) : vec :=
    if is_int ref_tag && allclose n (at_ v) (fun i => # (nround (at_ v i)))
    then {| tag := DInt; at_ := fun i => # (ntrunc (at_ v i)) |} else v.
  Definition would_cast (n : nat) (ref_tag : dt) (v : vec) : bool :=
    is_int ref_tag && allclose n (at_ v) (fun i => # (nround (at_ v i))).

  (** [shape // 2 * center_at_index + (shape - 1) / 2 * (1 - center_at_index)]: lines 140, 171, 176, 186.  The index of
      the center relative to the first element. *)
  Definition center_offset (sh : Z) (cai : bool) : N :=
    if cai then # (sh / 2)%Z else # (sh - 1)%Z / 2.
  (** [shape - include_last - center_offset]: lines 151, 171. *)
  Definition last_offset (sh : Z) (incl cai : bool) : N :=
    # (sh - (if incl then 1 else 0))%Z - center_offset sh cai.
  Definition bnum (b : bool) : N := if b then 1 else 0.

  (** The local variables of the constructor. [py_step] is set when [step] is the Python integer 1 of line 98. *)
  Record vars : Type := {
    v_shape : option vec; v_step : option vec; v_extent : option vec; v_first : option vec;
    v_center : option vec; v_last : option vec; py_step : bool
  }.

  (** Lines 107-108 and 113-114: the center on the raster that is nearest to 0. *)
  Definition guess_center (n : nat) (x step : vec) : result vec :=
    do inv <- vdiv n (vconst DInt 1) step;
    let half := {| tag := DFlt; at_ := fun i => at_ step i / 2 |} in
    let s := vadd x inv in
    Ok (vsub {| tag := join (tag s) (tag step); at_ := fun i => nmod (at_ s i) (at_ step i) |} half).

  (** Lines 95-126: determine the shape if it is not given. *)
  Definition find_shape (n : nat) (incl cai : nat -> bool) (v : vars) : result vars :=
    match v_shape v with
    | Some _ => Ok v
    | None =>
        match v_extent v with
        | None =>
            let '(step, py) := match v_step v with
                               | None => (vconst DInt 1, true)
                               | Some s => (s, py_step v)
                               end in
            match v_last v with
            | None =>
                let center0 := match v_first v, v_center v with
                               | None, None => Some (vconst DInt 0)
                               | _, c => c
                               end in
                let first := match v_first v, center0 with
                             | None, Some c => c
                             | None, None => vconst DInt 0
                             | Some f, _ => f
                             end in
                do center <- match center0 with
                             | Some c => Ok c
                             | None => guess_center n first step
                             end;
                do q <- vdiv n (vmul (vconst DInt 2) (vsub center first)) step;
                let shape := {| tag := DFlt; at_ := fun i => at_ q i - bnum (negb (cai i)) |} in
                Ok {| v_shape := Some shape; v_step := Some step; v_extent := None; v_first := Some first;
                      v_center := Some center; v_last := None; py_step := py |}
            | Some last =>
                match v_first v with
                | None =>
                    do center <- match v_center v with
                                 | Some c => Ok c
                                 | None => guess_center n last step
                                 end;
                    do q <- vdiv n (vmul (vconst DInt 2) (vsub last center)) step;
                    let shape := {| tag := DFlt; at_ := fun i => at_ q i + bnum (incl i) - bnum (negb (cai i)) |} in
                    Ok {| v_shape := Some shape; v_step := Some step; v_extent := None; v_first := None;
                          v_center := Some center; v_last := Some last; py_step := py |}
                | Some first =>
                    do q <- vdiv n (vsub last first) step;
                    let shape := {| tag := DFlt; at_ := fun i => at_ q i + bnum (incl i) |} in
                    Ok {| v_shape := Some shape; v_step := Some step; v_extent := None; v_first := Some first;
                          v_center := v_center v; v_last := Some last; py_step := py |}
                end
            end
        | Some extent =>
            let step := match v_step v with None => extent | Some s => s end in
            let extent := {| tag := join (tag step) (tag extent);
                             at_ := fun i => nsign (at_ step i) * nabs (at_ extent i) |} in
            do shape <- vdiv n extent step;
            Ok {| v_shape := Some shape; v_step := Some step; v_extent := Some extent; v_first := v_first v;
                  v_center := v_center v; v_last := v_last v; py_step := py_step v |}
        end
    end.

  (** Line 128. *)
  Definition round_shape (s : vec) : nat -> Z := fun i => Z.max 1 (nceil (at_ s i)).

  (** Lines 130-163: determine the step if it is not given.  The second component tells that the vector has
      only one element although there may be more axes ([np.ones(1)] on line 156). *)
  Definition find_step (n : nat) (incl cai : nat -> bool) (sh : nat -> Z) (v : vars) : result (vec * bool) :=
    match v_step v with
    | Some s => Ok (s, false)
    | None =>
        do s_short <-
          match v_extent v with
          | None =>
              match v_last v, v_first v, v_center v with
              | None, None, _ | None, Some _, None | Some _, None, None => Ok (vconst DInt 1, false)
              | None, Some first, Some center =>
                  do q <- vdiv n (vsub center first)
                              {| tag := DFlt; at_ := fun i => center_offset (sh i) (cai i) |};
                  Ok (cast_back n (tag (vsub center first)) q, false)
              | Some last, None, Some center =>
                  do q <- vdiv n (vsub last center)
                              {| tag := DFlt; at_ := fun i => last_offset (sh i) (incl i) (cai i) |};
                  Ok (cast_back n (tag (vsub last center)) q, false)
              | Some last, Some first, _ =>
                  if vall n (fun i => Z.ltb (if incl i then 1 else 0)%Z (sh i)) then
                    do q <- vdiv n (vsub last first)
                                {| tag := DInt; at_ := fun i => # (sh i - (if incl i then 1 else 0))%Z |};
                    Ok (cast_back n (tag (vsub last first)) q, false)
                  else Ok (cast_back n (tag (vsub last first)) (vconst DFlt 1), true)
              end
          | Some extent => do q <- vdiv n extent {| tag := DInt; at_ := fun i => # (sh i) |}; Ok (q, false)
          end;
        let '(s, short) := s_short in
        Ok (if vall n (fun i => at_ s i =? # (ntrunc (at_ s i)))
            then ({| tag := DInt; at_ := fun i => # (ntrunc (at_ s i)) |}, short) else (s, short))
    end.

  (** Lines 166-178: determine the center if it is not given. *)
  Definition find_center (n : nat) (incl cai : nat -> bool) (sh : nat -> Z) (step : vec) (py : bool) (v : vars)
    : result vec :=
    match v_center v with
    | Some c => Ok c
    | None =>
        match v_first v with
        | None =>
            match v_last v with
            | None => Ok (vconst DInt 0)
            | Some last =>
                let c := {| tag := DFlt;
                            at_ := fun i => at_ last i - at_ step i * last_offset (sh i) (incl i) (cai i) |} in
                if py && would_cast n (tag (vsub last step)) c then Err AttributeError
                else Ok (cast_back n (tag (vsub last step)) c)
            end
        | Some first =>
            let c := {| tag := DFlt; at_ := fun i => at_ first i + center_offset (sh i) (cai i) * at_ step i |} in
            if py && would_cast n (tag (vadd first step)) c then Err AttributeError
            else Ok (cast_back n (tag (vadd first step)) c)
        end
    end.

  (** Lines 182-187. *)
  Definition check_extent (n : nat) (sh : nat -> Z) (step : vec) (v : vars) : result unit :=
    match v_extent v with
    | None => Ok tt
    | Some e =>
        do q <- vdiv n e step;
        if negb (allclose n (at_ q) (fun i => # (sh i)))
           && negb (vall n (fun i => Z.eqb (Z.max 1 (nceil (at_ q i))) (sh i)))
        then Err ValueError else Ok tt
    end.
  Definition check_last (n : nat) (incl : nat -> bool) (sh : nat -> Z) (step : vec) (v : vars) : result unit :=
    match v_last v, v_first v with
    | Some last, Some first =>
        if vall n (fun i => # (sh i) * at_ step i =? at_ last i + at_ step i * bnum (incl i) - at_ first i)
        then Ok tt else Err ValueError
    | _, _ => Ok tt
    end.
  Definition check_first (n : nat) (cai : nat -> bool) (sh : nat -> Z) (step center : vec) (v : vars) : result unit :=
    match v_first v with
    | Some first =>
        if vall n (fun i => at_ center i =? at_ first i + center_offset (sh i) (cai i) * at_ step i)
        then Ok tt else Err ValueError
    | None => Ok tt
    end.

  (** The attributes of a Grid object (lines 83, 87, 193-199).  [short_step]: [_step] has one element only. *)
  Record grid : Type := {
    ndim : nat; shape : nat -> Z; step : vec; center : vec;
    flat : nat -> bool; origin_at_center : nat -> bool; center_at_index : nat -> bool;
    multidimensional : bool; short_step : bool
  }.

  (** [Grid(...)], lines 17-199. *)
  Definition construct (a : args) : result grid :=
    let n := ndim_of a in
    do v_sh <- to_ndim_opt n (a_shape a);
    do v_st <- to_ndim_opt n (a_step a);
    do v_ex <- to_ndim_opt n (a_extent a);
    do v_fi <- to_ndim_opt n (a_first a);
    do v_ce <- to_ndim_opt n (a_center a);
    do v_la <- to_ndim_opt n (a_last a);
    do fl <- to_ndim_b n (a_flat a);
    do oac <- to_ndim_b n (a_origin_at_center a);
    do incl <- to_ndim_b n (a_include_last a);
    do cai <- to_ndim_b n (a_center_at_index a);
    do v <- find_shape n incl cai
              {| v_shape := v_sh; v_step := v_st; v_extent := v_ex; v_first := v_fi; v_center := v_ce;
                 v_last := v_la; py_step := false |};
    do sh <- match v_shape v with Some s => Ok (round_shape s) | None => Err OtherException end;
    do st_short <- find_step n incl cai sh v;
    let '(st, short) := st_short in
    do ce <- find_center n incl cai sh st (py_step v) v;
    do _ <- check_extent n sh st v;
    do _ <- check_last n incl sh st v;
    do _ <- check_first n cai sh st ce v;
    if py_step v then Err (if Nat.eqb n 0 then AttributeError else TypeError)  (* lines 194-195 *)
    else
      let d := if Nat.eqb n 0 then DFlt else join (tag st) (tag ce) in
      Ok {| ndim := n; shape := sh; step := {| tag := d; at_ := at_ st |}; center := {| tag := d; at_ := at_ ce |};
            flat := fl; origin_at_center := oac; center_at_index := cai;
            multidimensional := multidimensional_of a; short_step := short && Nat.ltb 1 n |}.

  (** Properties. [first], lines 394-401 (both ways of halving give the same number). *)
  Definition first (g : grid) (i : nat) : N :=
    let r := at_ (center g) i - at_ (step g) i * # (shape g i / 2)%Z in
    if negb (center_at_index g i) && Z.even (shape g i) then r + at_ (step g) i / 2 else r.
  (** [extent], line 406; [size], line 415. *)
  Definition extent (g : grid) (i : nat) : N := # (shape g i) * at_ (step g) i.
  Definition size (g : grid) : Z := fold_right Z.mul 1%Z (map (shape g) (axes (ndim g))).

  (** [np.fft.ifftshift] of a vector: roll by -(n//2). *)
  Definition ifftshift {A} (l : list A) : list A :=
    let k := Nat.div (length l) 2 in skipn k l ++ firstn k l.

  (** The coordinates along one axis: [__getitem__], lines 544-554 (before orientation by [dim.to_axis]). *)
  Definition raw_coordinate (g : grid) (axis : nat) (j : nat) : N :=
    let c := at_ (center g) axis in let st := at_ (step g) axis in let sh := shape g axis in
    let idx := # (Z.of_nat j - sh / 2)%Z in
    let x := (if Z.ltb 1 sh then idx * st else idx) + c in
    if negb (center_at_index g axis) && Z.even sh then x + st / 2 else x.
  Definition axis_range (g : grid) (axis : nat) : list N :=
    let r := map (raw_coordinate g axis) (seq 0%nat (Z.to_nat (shape g axis))) in
    if origin_at_center g axis then r else ifftshift r.

  (** [g[key]] for an integer key, lines 532-563: an axis range for a multi-dimensional grid and a single coordinate
      otherwise. Negative keys count from the end; [np.arange(n)[key]] raises IndexError when out of range. *)
  Definition norm_index (n : Z) (key : Z) : result nat :=
    if (Z.leb (- n) key && Z.ltb key n)%bool then Ok (Z.to_nat (key mod n)) else Err IndexError.
  Definition getitem_axis (g : grid) (key : Z) : result (list N) :=
    if multidimensional g then
      do axis <- norm_index (Z.of_nat (ndim g)) key;
      if short_step g && Nat.ltb 0 axis then Err IndexError else Ok (axis_range g axis)
    else
      do idx <- norm_index (shape g 0%nat) key;
      Ok [nth idx (axis_range g 0%nat) 0].

  (** [__dict__], lines 574-581, as the arguments of a constructor call [Grid( **d )]. *)
  Definition vec_arg (g : grid) (d : dt) (f : nat -> N) : arg :=
    if multidimensional g then AVector d (map f (axes (ndim g))) else AScalar d (f 0%nat).
  Definition step_arg (g : grid) (s : vec) : arg :=
    if multidimensional g then AVector (tag s) (map (at_ s) (axes (if short_step g then 1%nat else ndim g)))
    else AScalar (tag s) (at_ s 0%nat).
  Definition flag_arg (g : grid) (f : nat -> bool) : barg :=
    if multidimensional g then BVector (map f (axes (ndim g))) else BScalar (f 0%nat).
  Definition dict (g : grid) : args :=
    {| a_shape := Some (vec_arg g DInt (fun i => # (shape g i)));
       a_step := Some (step_arg g (step g));
       a_extent := None; a_first := None;
       a_center := Some (vec_arg g (tag (center g)) (at_ (center g)));
       a_last := None; a_include_last := BScalar false; a_ndim := None;
       a_flat := flag_arg g (flat g); a_origin_at_center := flag_arg g (origin_at_center g);
       a_center_at_index := flag_arg g (center_at_index g) |}.
  Definition with_step (a : args) (s : arg) : args :=
    {| a_shape := a_shape a; a_step := Some s; a_extent := a_extent a; a_first := a_first a; a_center := a_center a;
       a_last := a_last a; a_include_last := a_include_last a; a_ndim := a_ndim a; a_flat := a_flat a;
       a_origin_at_center := a_origin_at_center a; a_center_at_index := a_center_at_index a |}.
  Definition with_center (a : args) (c : arg) : args :=
    {| a_shape := a_shape a; a_step := a_step a; a_extent := a_extent a; a_first := a_first a; a_center := Some c;
       a_last := a_last a; a_include_last := a_include_last a; a_ndim := a_ndim a; a_flat := a_flat a;
       a_origin_at_center := a_origin_at_center a; a_center_at_index := a_center_at_index a |}.
  Definition with_flat (a : args) (b : bool) : args :=
    {| a_shape := a_shape a; a_step := a_step a; a_extent := a_extent a; a_first := a_first a; a_center := a_center a;
       a_last := a_last a; a_include_last := a_include_last a; a_ndim := a_ndim a; a_flat := BScalar b;
       a_origin_at_center := a_origin_at_center a; a_center_at_index := a_center_at_index a |}.
  Definition with_origin (a : args) (b : bool) : args :=
    {| a_shape := a_shape a; a_step := a_step a; a_extent := a_extent a; a_first := a_first a; a_center := a_center a;
       a_last := a_last a; a_include_last := a_include_last a; a_ndim := a_ndim a; a_flat := a_flat a;
       a_origin_at_center := BScalar b; a_center_at_index := a_center_at_index a |}.

  (** [immutable] (line 584), [as_flat] (289), [as_non_flat] (302), [as_origin_at_0] (315), [as_origin_at_center] (326). *)
  Definition immutable (g : grid) : result grid := construct (dict g).
  Definition as_flat (g : grid) : result grid := construct (with_flat (dict g) true).
  Definition as_non_flat (g : grid) : result grid := construct (with_flat (dict g) false).
  Definition as_origin_at_0 (g : grid) : result grid := construct (with_origin (dict g) false).
  Definition as_origin_at_center (g : grid) : result grid := construct (with_origin (dict g) true).

  (** Operands of the arithmetic: numbers, numpy vectors, or Python sequences (list or tuple), with one element or one
      per axis. *)
  Inductive operand : Type :=
  | OScalar : dt -> N -> operand
  | OArray : dt -> list N -> operand
  | OSequence : dt -> list N -> operand.
  Definition operand_arg (o : operand) : arg :=
    match o with OScalar d x => AScalar d x | OArray d l | OSequence d l => AVector d l end.

  (** [__add__], lines 444-451. *)
  Definition add (g : grid) (o : operand) : result grid :=
    do t <- to_ndim (ndim g) (operand_arg o);
    construct (with_center (dict g) (let c := vadd (center g) t in vec_arg g (tag c) (at_ c))).
  (** [__mul__], lines 453-473. *)
  Definition mul (g : grid) (o : operand) : result grid :=
    do t <- to_ndim (ndim g) (operand_arg o);
    construct (with_center (with_step (dict g) (let s := vmul (step g) t in vec_arg g (tag s) (at_ s)))
                           (let c := vmul (center g) t in vec_arg g (tag c) (at_ c))).
  (** [__sub__], lines 500-502: the operand is negated first; a list or tuple has no unary minus. *)
  Definition sub (g : grid) (o : operand) : result grid :=
    match o with
    | OScalar d x => add g (OScalar d (nopp x))
    | OArray d l => add g (OArray d (map nopp l))
    | OSequence _ _ => Err TypeError
    end.
  (** [__truediv__], lines 504-512: [1 / denominator]; Python raises ZeroDivisionError for a scalar 0, numpy gives inf. *)
  Definition div (g : grid) (o : operand) : result grid :=
    match o with
    | OScalar d x => if x =? 0 then Err ZeroDivisionError else mul g (OScalar DFlt (1 / x))
    | OArray d l => if existsb (fun x => x =? 0) l then Err OtherException else mul g (OArray DFlt (map (fun x => 1 / x) l))
    | OSequence _ _ => Err TypeError
    end.
  (** [__neg__], lines 514-516. *)
  Definition neg (g : grid) : result grid := mul g (OScalar DInt (# (-1))).

  (** [__matmul__], lines 485-498. *)
  Definition matmul (g h : grid) : result grid :=
    let steps (g : grid) := map (at_ (step g)) (axes (if short_step g then 1%nat else ndim g)) in
    construct
      {| a_shape := Some (AVector DInt (map (fun i => # (shape g i)) (axes (ndim g)) ++ map (fun i => # (shape h i)) (axes (ndim h))));
         a_step := Some (AVector (join (tag (step g)) (tag (step h))) (steps g ++ steps h));
         a_extent := None; a_first := None;
         a_center := Some (AVector (join (tag (center g)) (tag (center h)))
                             (map (at_ (center g)) (axes (ndim g)) ++ map (at_ (center h)) (axes (ndim h))));
         a_last := None; a_include_last := BScalar false; a_ndim := None;
         a_flat := BVector (map (flat g) (axes (ndim g)) ++ map (flat h) (axes (ndim h)));
         a_origin_at_center := BVector (map (origin_at_center g) (axes (ndim g)) ++ map (origin_at_center h) (axes (ndim h)));
         a_center_at_index := BVector (map (center_at_index g) (axes (ndim g)) ++ map (center_at_index h) (axes (ndim h))) |}.

  (** [project(axes_to_keep, axes_to_remove)], lines 349-387, for lists of integers. *)
  Definition project (g : grid) (keep remove : list Z) : result grid :=
    let n := Z.of_nat (ndim g) in
    if existsb (fun a => Z.leb n a || Z.ltb a (- n))%bool keep then Err IndexError
    else
      let keep := map (fun a => Z.to_nat (a mod n)) keep in
      let remove := map (fun a => Z.to_nat (a mod n)) remove in
      let keep := filter (fun a => negb (existsb (Nat.eqb a) remove)) keep in
      if short_step g && existsb (Nat.ltb 0) keep then Err IndexError
      else
      match keep with
      | [] => construct {| a_shape := Some (AVector DFlt []); a_step := None; a_extent := None; a_first := None;
                           a_center := None; a_last := None; a_include_last := BScalar false; a_ndim := None;
                           a_flat := BScalar false; a_origin_at_center := BScalar true; a_center_at_index := BScalar true |}
      | _ =>
          construct {| a_shape := Some (AVector DInt (map (fun i => # (shape g i)) keep));
                       a_step := Some (AVector (tag (step g)) (map (at_ (step g)) keep));
                       a_extent := None; a_first := None;
                       a_center := Some (AVector (tag (center g)) (map (at_ (center g)) keep));
                       a_last := None; a_include_last := BScalar false; a_ndim := None;
                       a_flat := BVector (map (flat g) keep);
                       a_origin_at_center := BVector (map (origin_at_center g) keep);
                       a_center_at_index := BVector (map (center_at_index g) keep) |}
      end.
  (** [transpose()], lines 343-347, without argument. *)
  Definition transpose (g : grid) : result grid := project g (rev (map Z.of_nat (axes (ndim g)))) [].

  (** [transpose(axes)], lines 343-347; [swapaxes], lines 336-341, for a list of integers: [all_axes[axes] = axes[::-1]]
      assigns from left to right (the last one stays when an axis is repeated). *)
  Definition transpose_axes (g : grid) (l : list Z) : result grid := project g l [].
  Fixpoint set_nth {A} (i : nat) (x : A) (l : list A) : list A :=
    match l, i with [], _ => [] | _ :: l, O => x :: l | y :: l, S i => y :: set_nth i x l end.
  Definition swapaxes (g : grid) (l : list Z) : result grid :=
    let n := Z.of_nat (ndim g) in
    if existsb (fun a => Z.leb n a || Z.ltb a (- n))%bool l then Err IndexError
    else transpose_axes g (fold_left (fun acc pv => set_nth (Z.to_nat (fst pv mod n)) (snd pv) acc)
                             (combine l (rev l)) (map Z.of_nat (axes (ndim g)))).

  (** [f], lines 427-434, and [k], line 437-439, for a given value of [np.pi]. *)
  Definition f_grid (g : grid) : result grid :=
    do inv <- vdiv (if multidimensional g then ndim g else 1%nat) (vconst DInt 1) {| tag := DFlt; at_ := extent g |};
    construct {| a_shape := Some (vec_arg g DInt (fun i => # (shape g i)));
                 a_step := Some (vec_arg g (tag inv) (at_ inv));
                 a_extent := None; a_first := None; a_center := None; a_last := None;
                 a_include_last := BScalar false; a_ndim := None;
                 a_flat := flag_arg g (flat g); a_origin_at_center := BScalar false; a_center_at_index := BScalar true |}.
  Definition k_grid (pi : N) (g : grid) : result grid :=
    do f <- f_grid g; mul f (OScalar DFlt (2 * pi)).

  (** [Grid.from_ranges], lines 202-236, for non-empty vectors. *)
  Definition from_ranges (d : dt) (ranges : list (list N)) : result grid :=
    if existsb (fun r => Nat.eqb (length r) 0) ranges then Err AttributeError
    else
      let sz r := length r in
      let odd r := Nat.odd (sz r) in
      let first r := nth 0 r 0 in
      let before r := nth ((sz r - 1) / 2)%nat r 0 in
      let after r := nth (if Nat.ltb (sz r) 2 then 0 else sz r - sz r / 2)%nat r 0 in
      let last r := nth (sz r - 1)%nat r 0 in
      let oac r := nabs (before r - after r) <=? nabs (last r - first r) in
      let extent_m1 r := bnum (oac r) * (last r - first r) + bnum (negb (oac r)) * (before r - after r) in
      let stp r := extent_m1 r / # (Z.of_nat (sz r) - 1 + (if Nat.leb (sz r) 1 then 1 else 0))%Z in
      let ctr r := bnum (oac r) * (bnum (odd r) * before r + bnum (negb (odd r)) * after r) + bnum (negb (oac r)) * first r in
      construct {| a_shape := Some (AVector DInt (map (fun r => # (Z.of_nat (sz r))) ranges));
                   a_step := Some (AVector DFlt (map stp ranges));
                   a_extent := None; a_first := None;
                   a_center := Some (AVector d (map ctr ranges));
                   a_last := None; a_include_last := BScalar false; a_ndim := None; a_flat := BScalar false;
                   a_origin_at_center := BVector (map oac ranges); a_center_at_index := BScalar true |}.
End Grid.
