(** Model of an iteration of a Solution that is interrupted: python/macromax/solver.py lines 1063-1098 (one cycle of __iter__) and 514-527
    (__update_operators), statement by statement, on the memory of Memory_Model.  A KeyboardInterrupt or a MemoryError can come before each statement; what has been done until
    then stays, as nothing is caught in the repository.
    Simplified: the loops over the components in curl and longitudinal_projection_ft (backend/__init__.py lines 472-509 and 610-649) are single statements, but the work arrays can hold
    anything after an interruption; the new alpha and the operators that are made from it (lines 527-589) are set together. *)
From Coq Require Import Reals List Arith Bool ZArith.
Require Import Verif.Base Verif.Cplx Verif.CSum Verif.Field Verif.Fourier_Model Verif.Vec_Model Verif.Solver_Model Verif.Derived_Model Verif.Run_Model Verif.Memory_Model.
Import ListNotations.
Local Open Scope R_scope.
Local Open Scope C_scope.

(** A sequence of statements, each of which changes the Solution or its memory and has a result. *)
Inductive prog (A : Type) : Type :=
| Done (a : A)
| Step (X : Type) (f : machine -> X * machine) (k : X -> prog A).
Arguments Done {A}. Arguments Step {A}.
Fixpoint seq {A B} (p : prog A) (q : A -> prog B) : prog B :=
  match p with Done a => q a | Step X f k => Step X f (fun x => seq (k x) q) end.
Notation "x <== p ;; q" := (seq p (fun x => q)) (at level 61, p at next level, right associativity).
(** All statements are executed. *)
Fixpoint finish {A} (p : prog A) (m : machine) : A * machine :=
  match p with Done a => (a, m) | Step X f k => let (x, m1) := f m in finish (k x) m1 end.
(** The interruption comes before one of the statements, or after the last one. *)
Fixpoint stops {A} (p : prog A) (m m' : machine) : Prop :=
  match p with Done _ => m' = m | Step X f k => m' = m \/ (let (x, m1) := f m in stops (k x) m1 m') end.

(** A statement about the arrays; an assignment to attributes; reading the attributes. *)
Definition on_arrays {X} (f : M X) : prog X :=
  Step X (fun m => let (x, h) := f (mem m) in (x, {| rest := rest m; mem := h |})) Done.
Definition on_self (f : solution -> solution) : prog unit := Step unit (fun m => (tt, {| rest := f (rest m); mem := mem m |})) Done.
Definition self : prog solution := Step solution (fun m => (rest m, m)) Done.

Section Statements.
  Variables (lib : library) (aligned : loc -> bool) (junk : nat -> vfield).

  (** curl, backend/__init__.py 473-509. *)
  Definition curl_p (o : ops) (l : loc) : prog loc :=
    f <== on_arrays (ft_m lib aligned junk (shape o) true l) ;;
    v <== on_arrays (get f) ;;
    c <== on_arrays (new (curl_ft (o_grid o) (vector_length o) (vector_length o) v)) ;;
    on_arrays (ift_m lib aligned junk (shape o) true c).
  (** longitudinal_projection_ft, backend/__init__.py 610-649. *)
  Definition longitudinal_p (g : raster) (f : loc) : prog loc :=
    dc <== on_arrays (get f) ;;
    _ <== on_arrays (put Work (fun _ p => csum (rndim g) (fun i => RtoC (kvec g i p) * dc i p))) ;;
    _ <== on_arrays (change1 Work (fun w c p => if is_origin p then w c p else w c p / RtoC (k2 g p))) ;;
    w <== on_arrays (get Work) ;;
    _ <== on_arrays (put Buffer (fun c p =>
      if Nat.ltb c (rndim g) then if is_origin p then dc c p else RtoC (kvec g c p) * w 0%nat p else 0)) ;;
    Done Buffer.
  (** chi_op, solver.py lines 529-565. *)
  Definition chi_p (o : ops) (E : loc) : prog loc :=
    if o_magnetic o then
      e <== on_arrays (get E) ;;
      chiE <== on_arrays (new (tapply (o_chiEE o) e)) ;;
      chiH <== on_arrays (new (tapply (o_chiEH o) e)) ;;
      ED <== curl_p o E ;;
      d <== on_arrays (get ED) ;;
      t <== on_arrays (new (tapply (o_chiHE o) d)) ;;
      _ <== on_arrays (change chiE t plus) ;;
      x <== on_arrays (mul_out lib (o_chiHH o) ED) ;;
      _ <== on_arrays (change chiH x plus) ;;
      DH <== curl_p o chiH ;;
      _ <== on_arrays (change chiE DH plus) ;;
      Done chiE
    else on_arrays (mul_out lib (o_chiEE o) E).
  (** dyadic_green_function_op with g_ft_op, solver.py lines 567-587, and convolve, backend/__init__.py lines 306-319. *)
  Definition green_p (o : ops) (F : loc) : prog loc :=
    f <== on_arrays (ft_m lib aligned junk (shape o) true F) ;;
    _ <== (if o_vectorial o then
             p <== longitudinal_p (o_grid o) f ;;
             _ <== on_arrays (change f p minus) ;;
             _ <== on_arrays (change1 f (fun F c q => F c q * g_scalar o q)) ;;
             _ <== on_arrays (change1 p (fun F => times F (Ci * im (o_alpha o) / o_alpha o))) ;;
             on_arrays (change f p plus)
           else on_arrays (change1 f (fun F c q => F c q * g_scalar o q))) ;;
    on_arrays (ift_m lib aligned junk (shape o) true f).
  (** solver.py lines 1069-1076. *)
  Definition update_p (o : ops) : prog loc :=
    _ <== on_arrays (change Buffer Field (fun _ F => F)) ;;
    d1 <== chi_p o Buffer ;;
    _ <== on_arrays (change d1 Source plus) ;;
    d2 <== green_p o d1 ;;
    _ <== on_arrays (change d2 Field minus) ;;
    chi_p o d2.

  (** __update_operators, solver.py lines 514-589: the attributes one after the other. *)
  Definition set_chi (o : ops) (ee eh he hh : tensor) : ops :=
    {| o_grid := o_grid o; o_vectorial := o_vectorial o; o_magnetic := o_magnetic o; o_alpha := o_alpha o; o_beta := o_beta o;
       o_chiEE := ee; o_chiEH := eh; o_chiHE := he; o_chiHH := hh; o_source := o_source o |}.
  (** Lines 516-518: the magnetic components. *)
  Definition scale_EH (r : C) (o : ops) : ops := set_chi o (o_chiEE o) (tscale r (o_chiEH o)) (o_chiHE o) (o_chiHH o).
  Definition scale_HE (r : C) (o : ops) : ops := set_chi o (o_chiEE o) (o_chiEH o) (tscale r (o_chiHE o)) (o_chiHH o).
  Definition scale_HH (r : C) (o : ops) : ops := set_chi o (o_chiEE o) (o_chiEH o) (o_chiHE o) (tscale r (o_chiHH o)).
  (** Lines 520-526: the electric component. *)
  Definition scale_EE (r : C) (o : ops) : ops := set_chi o (tscale r (o_chiEE o)) (o_chiEH o) (o_chiHE o) (o_chiHH o).
  Definition shift_EE (a : C) (o : ops) : ops := set_chi o (tshift a (o_chiEE o)) (o_chiEH o) (o_chiHE o) (o_chiHH o).
  (** Lines 527-589: the new alpha, with the operators that are made from it.  The source in here is not used, as that in the memory is. *)
  Definition set_alpha (alpha r : C) (o : ops) : ops :=
    {| o_grid := o_grid o; o_vectorial := o_vectorial o; o_magnetic := o_magnetic o; o_alpha := alpha; o_beta := o_beta o;
       o_chiEE := o_chiEE o; o_chiEH := o_chiEH o; o_chiHE := o_chiHE o; o_chiHH := o_chiHH o; o_source := fun c p => o_source o c p * r |}.
  Definition on_operators (f : ops -> ops) : prog unit := on_self (fun s => set_operators s (f (operators s))).
  Definition update_operators_p (o : ops) (alpha : C) : prog unit :=
    let r := im (o_alpha o) / im alpha in
    _ <== on_arrays (change1 Source (fun S => times S r)) ;;
    _ <== on_operators (scale_EH r) ;;
    _ <== on_operators (scale_HE r) ;;
    _ <== on_operators (scale_HH r) ;;
    _ <== on_operators (scale_EE (1 / (Ci / im (o_alpha o)))) ;;
    _ <== on_operators (shift_EE (o_alpha o - alpha)) ;;
    _ <== on_operators (scale_EE (Ci / im alpha)) ;;
    on_operators (set_alpha alpha r).

  (** One cycle, solver.py lines 1063-1098; with the exception if it raises one itself. *)
  Definition next_p (fresh : bool) : prog (option pyexc) :=
    _ <== (if fresh then on_self (fun s => set_iteration s 0) else Done tt) ;;
    _ <== on_self (fun s => set_iteration s (iteration s + 1)) ;;
    _ <== on_self (fun s => set_residue s None) ;;
    s <== self ;;
    d <== update_p (operators s) ;;
    v <== on_arrays (get d) ;;
    let current := norm (operators s) v in
    let accept :=
      _ <== on_arrays (change Field d plus) ;;
      _ <== on_self (fun s => set_prev_norm s (Fin current)) ;;
      Done None in
    let reject :=
      _ <== update_operators_p (operators s) (fst (o_alpha (operators s)), (15 / 10 * snd (o_alpha (operators s)))%R) ;;
      Done None in
    match prev_norm s with
    | Inf => accept
    | Fin x => if Req_EM_T x 0 then Done (Some ZeroDivisionError) else if Rlt_dec (current / x) 1 then accept else reject
    end.

  (** An interruption of a cycle: the work arrays can hold anything after it. *)
  Definition same_but_work (h h' : heap) : Prop :=
    created h' = created h /\ ticks h' = ticks h /\ fft_input h' = fft_input h /\ ifft_input h' = ifft_input h /\
    forall l, l <> Buffer -> l <> Spectrum -> l <> Work -> content h' l = content h l.
  Definition interruption (fresh : bool) (m m' : machine) : Prop :=
    exists m0, stops (next_p fresh) m m0 /\ rest m' = rest m0 /\ same_but_work (mem m0) (mem m').

  (** What can happen to a Solution: what its user does, and iterations that are interrupted. *)
  Inductive event : Type := Deed (d : deed) | Cut (fresh : bool).
  Inductive lived (u : si) (x : session) : list event -> session -> Prop :=
  | lived_start : lived u x [] x
  | lived_deed l y d : lived u x l y -> lived u x (l ++ [Deed d]) (deed_m lib aligned junk u y d)
  | lived_cut l y fresh m : lived u x l y -> interruption fresh (now y) m -> lived u x (l ++ [Cut fresh]) {| now := m; got := got y |}.
End Statements.
