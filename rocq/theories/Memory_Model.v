(** Model of the arrays in memory of a Solution: which arrays an iteration and the properties of a Solution write to, and which they
    return. python/macromax/backend/numpy.py lines 46-95 and 112-133 (transforms with and without pyfftw); backend/torch.py
    lines 183-249 (transforms and mul); backend/__init__.py lines
    259-281 (work arrays), 306-319 (convolve), 415-444 (mul with out), 472-509 (curl), 544-569 (div), 606-649 (longitudinal_projection_ft);
    solver.py lines 214-216, 514-589 (operators), 691-995 (properties), 1063-1098 (iteration).
    The values are those of Solver_Model, Derived_Model and Run_Model, which have no memory.
    Simplified: exact numbers; arrays with the full shape; the arrays of the material properties belong to the Solution alone, as all of them
    are results of mul or subtract (lines 371-493), so that they are values here; numpy copies overlapping operands of
    in-place operations and of einsum with out, as its documentation says. *)
From Coq Require Import Reals List Arith Bool ZArith.
Require Import Verif.Base Verif.Cplx Verif.CSum Verif.Field Verif.Fourier_Model Verif.Vec_Model Verif.Solver_Model Verif.Derived_Model Verif.Run_Model.
Import ListNotations.
Local Open Scope R_scope.
Local Open Scope C_scope.

(** The arrays: __field_array, __source_normalized, array_ft_input (also __d_field and array_ift_output), array_ft_output (also
    array_ift_input), the work array of longitudinal_projection_ft, and all others in order of creation. *)
Inductive loc : Type := Field | Source | Buffer | Spectrum | Work | New (n : nat).
Definition loc_eqb (a b : loc) : bool :=
  match a, b with
  | Field, Field | Source, Source | Buffer, Buffer | Spectrum, Spectrum | Work, Work => true
  | New m, New n => (m =? n)%nat
  | _, _ => false
  end.

(** The memory, and the arrays that the two pyfftw.FFTW objects refer to as their input. *)
Record heap : Type := { content : loc -> vfield; created : nat; ticks : nat; fft_input : loc; ifft_input : loc }.
Definition write (h : heap) (l : loc) (f : vfield) : heap :=
  {| content := fun x => if loc_eqb x l then f else content h x; created := created h; ticks := ticks h; fft_input := fft_input h; ifft_input := ifft_input h |}.
Definition M (A : Type) : Type := heap -> A * heap.
Definition ret {A} (a : A) : M A := fun h => (a, h).
Definition bindm {A B} (m : M A) (k : A -> M B) : M B := fun h => let (a, h') := m h in k a h'.
Notation "x <-- m ;; k" := (bindm m (fun x => k)) (at level 61, m at next level, right associativity).
(** A new array. *)
Definition new (f : vfield) : M loc := fun h =>
  (New (created h),
   {| content := fun x => if loc_eqb x (New (created h)) then f else content h x; created := S (created h); ticks := ticks h;
      fft_input := fft_input h; ifft_input := ifft_input h |}).
Definition get (l : loc) : M vfield := fun h => (content h l, h).
(** In-place operations. *)
Definition put (l : loc) (f : vfield) : M unit := fun h => (tt, write h l f).
Definition tick (h : heap) : heap :=
  {| content := content h; created := created h; ticks := S (ticks h); fft_input := fft_input h; ifft_input := ifft_input h |}.
Definition set_fft_input (l : loc) (h : heap) : heap :=
  {| content := content h; created := created h; ticks := ticks h; fft_input := l; ifft_input := ifft_input h |}.
Definition set_ifft_input (l : loc) (h : heap) : heap :=
  {| content := content h; created := created h; ticks := ticks h; fft_input := fft_input h; ifft_input := l |}.

(** The array library: numpy, numpy with pyfftw installed, or torch (backend/torch.py lines 183-205: its transforms return new arrays, as those
    of numpy without pyfftw). *)
Inductive library : Type := Numpy | Pyfftw | Torch.
Definition has_pyfftw (l : library) : bool := match l with Pyfftw => true | _ => false end.

Section Machine.
  (** The library; which arrays meet the requirements of pyfftw of alignment and data type; and what it leaves in the arrays that
      it may destroy (line 51) or cannot transform (onto themselves, with plans for separate arrays). *)
  Variables (lib : library) (aligned : loc -> bool) (junk : nat -> vfield).

  (** The call of a pyfftw.FFTW object with an array: it refers to that array from then on; or, when that array is not aligned, it copies the
      values to the array that it refers to already. *)
  Definition fft_call (sh : list nat) (l : loc) : M loc := fun h =>
    let h1 := if aligned l then set_fft_input l h else write h (fft_input h) (content h l) in
    let i := fft_input h1 in
    let v := content h1 i in
    let h2 := tick (write h1 i (junk (ticks h1))) in
    (Spectrum, tick (write h2 Spectrum (if loc_eqb i Spectrum then junk (ticks h2) else vft sh v))).
  Definition ifft_call (sh : list nat) (l : loc) : M loc := fun h =>
    let h1 := if aligned l then set_ifft_input l h else write h (ifft_input h) (content h l) in
    let i := ifft_input h1 in
    let v := content h1 i in
    let h2 := tick (write h1 i (junk (ticks h1))) in
    (Buffer, tick (write h2 Buffer (if loc_eqb i Buffer then junk (ticks h2) else vift sh v))).
  (** Lines 66-95; standard: whether the array has the shape of a vector field. A grid of one point is copied: the transform of one
      element is that element. *)
  Definition trivial (sh : list nat) : bool := forallb (Nat.eqb 1) sh.
  Definition ft_m (sh : list nat) (standard : bool) (l : loc) : M loc :=
    if has_pyfftw lib && standard && negb (trivial sh) then fft_call sh l else (v <-- get l ;; new (vft sh v)).
  Definition ift_m (sh : list nat) (standard : bool) (l : loc) : M loc :=
    if has_pyfftw lib && standard && negb (trivial sh) then ifft_call sh l else (v <-- get l ;; new (vift sh v)).

  (** ** Operators *)
  Definition plus (F G : vfield) : vfield := fun c p => F c p + G c p.
  Definition minus (F G : vfield) : vfield := fun c p => F c p - G c p.
  Definition times (F : vfield) (a : C) : vfield := fun c p => F c p * a.
  (** x += y, x -= y, and similar for a given function. *)
  Definition change (x y : loc) (f : vfield -> vfield -> vfield) : M unit := a <-- get x ;; b <-- get y ;; put x (f a b).
  Definition change1 (x : loc) (f : vfield -> vfield) : M unit := a <-- get x ;; put x (f a).
  Definition shape (o : ops) : list nat := rshape (o_grid o).
  (** curl, backend/__init__.py 473-509. *)
  Definition curl_m (o : ops) (l : loc) : M loc :=
    f <-- ft_m (shape o) true l ;;
    v <-- get f ;;
    c <-- new (curl_ft (o_grid o) (vector_length o) (vector_length o) v) ;;
    ift_m (shape o) true c.
  (** longitudinal_projection_ft, backend/__init__.py 610-649. *)
  Definition longitudinal_m (g : raster) (f : loc) : M loc :=
    dc <-- get f ;;
    _ <-- put Work (fun _ p => csum (rndim g) (fun i => RtoC (kvec g i p) * dc i p)) ;;
    _ <-- change1 Work (fun w c p => if is_origin p then w c p else w c p / RtoC (k2 g p)) ;;
    w <-- get Work ;;
    _ <-- put Buffer (fun c p =>
      if Nat.ltb c (rndim g) then if is_origin p then dc c p else RtoC (kvec g c p) * w 0%nat p else 0) ;;
    ret Buffer.
  (** mul(t, l, out=l): in place in backend/__init__.py lines 415-444; in backend/torch.py lines 220-249 only products with scalars are. *)
  Definition mul_out (t : tensor) (l : loc) : M loc :=
    match lib, t with
    | Torch, TMatrix _ => v <-- get l ;; new (tapply t v)
    | _, _ => _ <-- change1 l (tapply t) ;; ret l
    end.
  (** chi_op, lines 529-565. *)
  Definition chi_m (o : ops) (E : loc) : M loc :=
    if o_magnetic o then
      e <-- get E ;;
      chiE <-- new (tapply (o_chiEE o) e) ;;
      chiH <-- new (tapply (o_chiEH o) e) ;;
      ED <-- curl_m o E ;;
      d <-- get ED ;;
      t <-- new (tapply (o_chiHE o) d) ;;
      _ <-- change chiE t plus ;;
      x <-- mul_out (o_chiHH o) ED ;;
      _ <-- change chiH x plus ;;
      DH <-- curl_m o chiH ;;
      _ <-- change chiE DH plus ;;
      ret chiE
    else mul_out (o_chiEE o) E.
  (** dyadic_green_function_op with g_ft_op, lines 573-587. *)
  Definition green_m (o : ops) (F : loc) : M loc :=
    f <-- ft_m (shape o) true F ;;
    _ <-- (if o_vectorial o then
             p <-- longitudinal_m (o_grid o) f ;;
             _ <-- change f p minus ;;
             _ <-- change1 f (fun F c q => F c q * g_scalar o q) ;;
             _ <-- change1 p (fun F => times F (Ci * im (o_alpha o) / o_alpha o)) ;;
             change f p plus
           else change1 f (fun F c q => F c q * g_scalar o q)) ;;
    ift_m (shape o) true f.
  (** Lines 1069-1076. *)
  Definition update_m (o : ops) : M loc :=
    _ <-- change Buffer Field (fun _ F => F) ;;
    d1 <-- chi_m o Buffer ;;
    _ <-- change d1 Source plus ;;
    d2 <-- green_m o d1 ;;
    _ <-- change d2 Field minus ;;
    chi_m o d2.

  (** ** A Solution with its memory *)
  (** All but the arrays: the field and the source in here are not used. *)
  Record machine : Type := { rest : solution; mem : heap }.
  Definition with_arrays (s : solution) (F src : vfield) : solution :=
    {| wavenumber := wavenumber s; bound_chi := bound_chi s;
       operators := {| o_grid := o_grid (operators s); o_vectorial := o_vectorial (operators s); o_magnetic := o_magnetic (operators s);
                       o_alpha := o_alpha (operators s); o_beta := o_beta (operators s); o_chiEE := o_chiEE (operators s);
                       o_chiEH := o_chiEH (operators s); o_chiHE := o_chiHE (operators s); o_chiHH := o_chiHH (operators s); o_source := src |};
       field := F; prev_norm := prev_norm s; iteration := iteration s; residue_cache := residue_cache s |}.
  (** The Solution that the machine stands for. *)
  Definition solution_of (m : machine) : solution := with_arrays (rest m) (content (mem m) Field) (content (mem m) Source).
  (** Assignments in place to the arrays of the field and the source. *)
  Definition store (m : machine) (s : solution) : machine := {| rest := s; mem := write (write (mem m) Field (field s)) Source (o_source (operators s)) |}.

  (** One step of the iteration, lines 1063-1098. *)
  Definition next_m (fresh : bool) (m : machine) : machine * option pyexc :=
    let s := if fresh then set_iteration (rest m) 0 else rest m in
    let s := set_residue (set_iteration s (iteration s + 1)) None in
    let o := operators s in
    let (d, h) := update_m o (mem m) in
    let current := norm o (content h d) in
    let accepted := {| rest := set_prev_norm s (Fin current); mem := snd (change Field d plus h) |} in
    let alpha := (fst (o_alpha o), (15 / 10 * snd (o_alpha o))%R) in
    let rejected := {| rest := set_operators s (update_operators o alpha);
                       mem := snd (change1 Source (fun S => times S (im (o_alpha o) / im alpha)) h) |} in
    match prev_norm s with
    | Inf => (accepted, None)
    | Fin x =>
        if Req_EM_T x 0 then ({| rest := s; mem := h |}, Some ZeroDivisionError)
        else if Rlt_dec (current / x) 1 then (accepted, None) else (rejected, None)
    end.

  (** ** The properties that return arrays *)
  Inductive getter : Type := RE | RSource | RJ | RB | RH | RD | RS | RDivS | REnergy | RStress | RForce | RTorque.
  (** E, lines 810-818. *)
  Definition e_m (k0 : R) : M loc := F <-- get Field ;; new (electric_field k0 F).
  (** source_distribution, solver.py lines 690-700, and j, lines 789-798. *)
  Definition source_m (o : ops) : M loc := src <-- get Source ;; new (times src (RtoC (o_beta o) / Ci * im (o_alpha o))).
  Definition j_m (u : si) (o : ops) (k0 : R) : M loc :=
    x <-- source_m o ;; v <-- get x ;; new (fun c p => v c p / (- Ci * RtoC (angular_frequency u k0) * RtoC (mu_0 u))).
  (** B, lines 834-845. *)
  Definition b_m (u : si) (o : ops) (k0 : R) : M loc :=
    e <-- e_m k0 ;; c <-- curl_m o e ;; v <-- get c ;; new (fun c p => v c p / (Ci * RtoC (c_light u))).
  (** H, lines 865-893. *)
  Definition h_m (u : si) (o : ops) (k0 : R) : M loc :=
    let b := - Ci * im (o_alpha o) in
    if o_magnetic o then
      let mu_inv := tscale (RtoC (o_beta o)) (tsub (TScalar (fun _ => 1)) (tscale b (o_chiHH o))) in
      e <-- e_m k0 ;; c <-- curl_m o e ;; v <-- get c ;; x <-- new (tapply mu_inv v) ;;
      e' <-- e_m k0 ;; w <-- get e' ;; y <-- new (tapply (tscale b (o_chiHE o)) w) ;;
      vx <-- get x ;; vy <-- get y ;;
      new (fun c p => Ci / (RtoC (mu_0 u) * RtoC (c_light u)) * (- vx c p + RtoC (o_beta o) * vy c p))
    else
      e <-- e_m k0 ;; c <-- curl_m o e ;; v <-- get c ;;
      x <-- new (fun c p => - Ci / (RtoC (mu_0 u) * RtoC (c_light u)) * v c p) ;; vx <-- get x ;;
      new (fun c p => (1 - tfirst (o_grid o) (o_chiHH o) * b) * RtoC (o_beta o) * vx c p).
  (** D, lines 847-863. *)
  Definition d_m (u : si) (o : ops) (k0 : R) : M loc :=
    x <-- h_m u o k0 ;; d <-- curl_m o x ;;
    _ <-- change1 d (fun F => times F (RtoC k0)) ;;
    _ <-- change d Source (fun F S c p =>
      F c p - RtoC (o_beta o) / (Ci * RtoC (angular_frequency u k0) * RtoC (mu_0 u)) * (S c p * (im (o_alpha o) / Ci))) ;;
    _ <-- change1 d (fun F => times F (Ci / RtoC (angular_frequency u k0))) ;;
    ret d.
  (** S, lines 895-909. *)
  Definition s_m (u : si) (o : ops) (k0 : R) : M loc :=
    e <-- e_m k0 ;; x <-- h_m u o k0 ;; ve <-- get e ;; vx <-- get x ;;
    new (fun c p => RtoC (/ 2 * fst (cross (vector_length o) ve (fun c p => Cconj (vx c p)) c p))%R).
  (** div of a field whose components are the columns of an array: the result has the shape of a vector field if n is the vector length. *)
  Definition div_m (o : ops) (standard_in standard_out : bool) (column : vfield -> vfield) (l : loc) : M (result loc) :=
    f <-- ft_m (shape o) standard_in l ;; v <-- get f ;;
    match div_ft (o_grid o) (vector_length o) (column v) with
    | Err e => ret (Err e)
    | Ok r => c <-- new (fun _ => r) ;; x <-- ift_m (shape o) standard_out c ;; ret (Ok x)
    end.
  (** divS, solver.py lines 911-918; a scalar problem has vectors of one component. *)
  Definition divs_m (u : si) (o : ops) (k0 : R) : M (result loc) :=
    x <-- s_m u o k0 ;; div_m o true (vector_length o =? 1)%nat (fun v => v) x.
  (** energy_density, lines 920-936. *)
  Definition energy_m (u : si) (o : ops) (k0 : R) : M loc :=
    e <-- e_m k0 ;; b <-- b_m u o k0 ;; x <-- h_m u o k0 ;; d <-- d_m u o k0 ;;
    ve <-- get e ;; vb <-- get b ;; vx <-- get x ;; vd <-- get d ;;
    new (fun _ p => RtoC ((rsum (vector_length o) (fun c => fst (Cmult (ve c p) (Cconj (vd c p))))
                           + rsum (vector_length o) (fun c => fst (Cmult (vb c p) (Cconj (vx c p))))) * (/ 2 * / 2))%R).
  (** stress_tensor, solver.py lines 938-958; component (i, j) as number i + 3 j. *)
  Definition stress_m (u : si) (o : ops) (k0 : R) : M loc :=
    e <-- e_m k0 ;; x <-- h_m u o k0 ;; ve <-- get e ;; vx <-- get x ;;
    new (fun ij p =>
      let E2 := rsum (vector_length o) (fun c => (Cmod (ve c p) * Cmod (ve c p))%R) in
      let H2 := rsum (vector_length o) (fun c => (Cmod (vx c p) * Cmod (vx c p))%R) in
      let i := (ij mod 3)%nat in let j := (ij / 3)%nat in
      RtoC (fst (RtoC (/ 2) * (RtoC (epsilon_0 u) * outer ve ve i j p + outer vx vx i j p * RtoC (mu_0 u)
                               - RtoC (/ 2) * eye i j * RtoC (epsilon_0 u * E2 + H2 * mu_0 u)%R))%C)).
  (** f, solver.py lines 960-975: component j is the divergence of column j. The array has one column for scalar problems, and the shape of a vector
      field only then. *)
  Definition force_m (u : si) (o : ops) (k0 : R) : M (result loc) :=
    x <-- stress_m u o k0 ;;
    f <-- ft_m (shape o) (vector_length o =? 1)%nat x ;; v <-- get f ;;
    if Nat.ltb (vector_length o) (rndim (o_grid o)) then ret (Err IndexError)
    else
      c <-- new (fun j p => csum (rndim (o_grid o)) (fun d => Ci * RtoC (kvec (o_grid o) d p) * v (d + 3 * j)%nat p)) ;;
      y <-- ift_m (shape o) true c ;; w <-- get y ;;
      z <-- new (fun j p => RtoC (fst (w j p) * k0)%R) ;; ret (Ok z).
  (** torque, lines 977-995. *)
  Definition torque_m (u : si) (o : ops) (k0 : R) : M (result loc) :=
    if o_vectorial o then
      x <-- stress_m u o k0 ;; v <-- get x ;;
      z <-- new (fun c => match c with 0%nat => v 7%nat | 1%nat => v 6%nat | _ => v 3%nat end) ;; ret (Ok z)
    else (x <-- stress_m u o k0 ;; ret (Err IndexError)).
  Definition ok_m (m : M loc) : M (result loc) := x <-- m ;; ret (Ok x).
  Definition read_m (u : si) (g : getter) (m : machine) : machine * result loc :=
    let o := operators (rest m) in
    let k0 := wavenumber (rest m) in
    let (x, h) := match g with
      | RE => ok_m (e_m k0) | RSource => ok_m (source_m o) | RJ => ok_m (j_m u o k0) | RB => ok_m (b_m u o k0) | RH => ok_m (h_m u o k0)
      | RD => ok_m (d_m u o k0) | RS => ok_m (s_m u o k0) | RDivS => divs_m u o k0 | REnergy => ok_m (energy_m u o k0)
      | RStress => ok_m (stress_m u o k0) | RForce => force_m u o k0 | RTorque => torque_m u o k0
      end (mem m) in
    ({| rest := rest m; mem := h |}, x).

  (** ** Histories *)
  (** A Solution and the arrays that its user has obtained. *)
  Record session : Type := { now : machine; got : list loc }.
  (** What a user can do: an iteration, an assignment or another operation of Run_Model; read an array; change array number k, counting from
      0, of those obtained. *)
  Inductive deed : Type := Do (a : op) | Read (g : getter) | Write (k : nat) (f : vfield).
  Definition do_m (u : si) (m : machine) (a : op) : machine :=
    match a with ONext fresh => fst (next_m fresh m) | _ => store m (perform u (solution_of m) a) end.
  Definition deed_m (u : si) (x : session) (a : deed) : session :=
    match a with
    | Do a => {| now := do_m u (now x) a; got := got x |}
    | Read g =>
        let (m, r) := read_m u g (now x) in
        {| now := m; got := match r with Ok l => got x ++ [l] | Err _ => got x end |}
    | Write k f =>
        match nth_error (got x) k with
        | Some l => {| now := {| rest := rest (now x); mem := write (mem (now x)) l f |}; got := got x |}
        | None => x
        end
    end.
  Definition session_after (u : si) (x : session) (l : list deed) : session := fold_left (deed_m u) l x.
End Machine.

(** The memory after the constructor, solver.py lines 214-217 and 259-263: the transforms refer to the work arrays (numpy.py lines 57-62). *)
Definition fresh_heap (F src : vfield) : heap :=
  {| content := fun l => match l with Field => F | Source => src | _ => fun _ _ => 0 end; created := 0; ticks := 0;
     fft_input := Buffer; ifft_input := Spectrum |}.
Definition start (s : solution) : session := {| now := {| rest := s; mem := fresh_heap (field s) (o_source (operators s)) |}; got := [] |}.
