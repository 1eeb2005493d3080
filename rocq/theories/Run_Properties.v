(** Theorems about the history of a Solution: iteration, solve, and the properties E, source_distribution, j, epsilon and
    residue (C15 to C19, C23, C51, C73 to C76).  A history starts at the constructor. *)
From Coq Require Import Reals Lra Lia List Arith ZArith Bool.
Require Import Verif.Base Verif.Cplx Verif.CSum Verif.Field Verif.Fourier_Model Verif.Fourier_Spec.
Require Import Verif.Vec_Model Verif.Vec_Spec Verif.Solver_Model Verif.Solver_Spec Verif.Solver_Proofs Verif.Solver_Choice Verif.Solver_Properties.
Require Import Verif.Derived_Model Verif.Derived_Spec Verif.Run_Model Verif.Run_Spec Verif.Run_Proofs Verif.Run_Solve Verif.Run_Zero Verif.Run_Epsilon Verif.Run_Converge Verif.Run_Glue.
Import ListNotations.
Local Open Scope R_scope.
Local Open Scope C_scope.

(** ** C15: iteration *)
(** Every iteration either raises ZeroDivisionError, which happens exactly after an update that was exactly zero, or keeps the
    field and increases the imaginary part of alpha, or replaces the field by one at the reported distance. *)
Theorem iteration_effect : forall u g v magnetic k0 alpha beta eps xi zeta mu S chi E0 l fresh,
  k0 <> 0%R ->
  let s := history u l (construct g v magnetic k0 alpha beta eps xi zeta mu S chi E0) in
  let (s', exc) := next fresh s in
  iteration s' = ((if fresh then 0 else iteration s) + 1)%Z /\
  match exc with
  | Some e => e = ZeroDivisionError /\ previous_update_norm s = Fin 0 /\ get_E s' = get_E s /\ operators s' = operators s
  | None =>
      (get_E s' = get_E s /\ (exists x, previous_update_norm s = Fin x /\ previous_update_norm s' = Fin x /\ x <= attempt s)%R /\
       o_alpha (operators s') = (fst (o_alpha (operators s)), 15 / 10 * snd (o_alpha (operators s)))%R) \/
      (operators s' = operators s /\ change s s' = attempt s /\ previous_update_norm s' = Fin (attempt s) /\
       forall x, previous_update_norm s = Fin x -> (attempt s < x)%R)
  end.
Proof.
  intros u g v magnetic k0 alpha beta eps xi zeta mu S chi E0 l fresh Hk s.
  assert (wavenumber s <> 0%R) as Hw by (unfold s; rewrite history_wavenumber; exact Hk).
  assert (norm_ok s) as Hn by (apply norm_ok_history; exact I).
  pose proof (next_iteration s fresh) as Hi. exact (next_effect s fresh Hw Hn).
Qed.
Print Assumptions iteration_effect.

(** The first update after assigning E or the source is always accepted. *)
Theorem first_update_accepted : forall u g v magnetic k0 alpha beta eps xi zeta mu S chi E0 l a fresh,
  k0 <> 0%R -> (exists x, a = OSetE x \/ a = OSetSource x \/ a = OSetJ x) ->
  let s := history u (l ++ [a]) (construct g v magnetic k0 alpha beta eps xi zeta mu S chi E0) in
  let (s', exc) := next fresh s in
  exc = None /\ operators s' = operators s /\ previous_update_norm s' = Fin (change s s').
Proof.
  intros u g v magnetic k0 alpha beta eps xi zeta mu S chi E0 l a fresh Hk Ha s.
  assert (wavenumber s <> 0%R) as Hw by (unfold s; rewrite history_wavenumber; exact Hk).
  assert (prev_norm s = Inf) as Hp by (unfold s; rewrite history_app; destruct Ha as (x & [-> | [-> | ->]]); reflexivity).
  exact (next_first s fresh Hw Hp).
Qed.
Print Assumptions first_update_accepted.

(** Between assignments the accepted changes of E become strictly smaller. *)
Theorem accepted_changes_shrink : forall u g v magnetic k0 alpha beta eps xi zeta mu S chi E0 l a l' b,
  k0 <> 0%R -> iterates_or_reads a -> Forall iterates_or_reads l' -> iterates_or_reads b ->
  let s := history u l (construct g v magnetic k0 alpha beta eps xi zeta mu S chi E0) in
  let s1 := perform u s a in let s2 := history u l' s1 in let s3 := perform u s2 b in
  change s s1 <> 0%R -> change s2 s3 <> 0%R -> (change s2 s3 < change s s1)%R.
Proof.
  intros u g v magnetic k0 alpha beta eps xi zeta mu S chi E0 l a l' b Hk Ha Hl Hb s.
  apply shrinking; try assumption; [unfold s; rewrite history_wavenumber; exact Hk|apply norm_ok_history; exact I].
Qed.
Print Assumptions accepted_changes_shrink.

(** The iterations of one iterator are numbered 1, 2, 3, ... whatever is read or assigned in between. *)
Theorem iterations_counted : forall u s l, Forall keeps_count l ->
  iteration (history u (ONext true :: l) s) = (1 + Z.of_nat (length (filter is_next l)))%Z.
Proof. intros u s l Hl. rewrite history_cons, (count u l _ Hl). cbn [perform]. rewrite next_iteration. lia. Qed.
Print Assumptions iterations_counted.

(** Whatever the preconditioner becomes, the problem stays the one that was posed, with the last source that was assigned. *)
Theorem history_keeps_problem : forall u g v magnetic k0 alpha beta eps xi zeta mu S chi E0 l,
  solvable v g k0 -> snd alpha <> 0%R -> beta <> 0%R -> Forall keeps_material l ->
  let s := history u l (construct g v magnetic k0 alpha beta eps xi zeta mu S chi E0) in
  exists alpha', snd alpha' <> 0%R /\ wavenumber s = k0 /\
    operators s = prepare (scaled k0 g) v magnetic alpha' beta (with_bound eps chi) xi zeta mu (last_source u k0 l S).
Proof.
  intros u g v magnetic k0 alpha beta eps xi zeta mu S chi E0 l Hs Ha Hb Hl s.
  set (pb := {| p_grid := g; p_vectorial := v; p_magnetic := magnetic; p_k0 := k0; p_beta := beta; p_eps := with_bound eps chi; p_xi := xi; p_zeta := zeta; p_mu := mu; p_source := S |}).
  destruct (poses_history u pb l (construct g v magnetic k0 alpha beta eps xi zeta mu S chi E0)) as (alpha' & Ha' & Hp & Ho).
  - split; assumption.
  - exists alpha. split; [exact Ha|]. split; reflexivity.
  - exact Hl.
  - exists alpha'. auto.
Qed.
Print Assumptions history_keeps_problem.

(** So that a run that stops changing has found the solution for the last source (isotropic media). *)
Theorem history_fixed_point : forall u g v k0 alpha beta e mu S E0 l,
  solvable v g k0 -> fits v mu -> snd alpha <> 0%R -> beta <> 0%R -> Forall keeps_material l ->
  let s := history u l (construct g v false k0 alpha beta (TScalar e) tzero tzero mu S None E0) in
  wave_equation v g k0 beta (TScalar e) (get_E s) (last_source u k0 l S) ->
  attempt s = 0%R.
Proof.
  intros u g v k0 alpha beta e mu S E0 l Hs Hm Ha Hb Hl s HE.
  destruct (history_keeps_problem u g v false k0 alpha beta (TScalar e) tzero tzero mu S None E0 l Hs Ha Hb Hl) as (alpha' & Ha' & Hw & Ho).
  fold s in Hw, Ho. apply (fixed_stays v g k0 alpha' beta (TScalar e) mu (last_source u k0 l S) s Hs Ha' Hb I Hm Hw Ho HE).
Qed.
Print Assumptions history_fixed_point.

(** ** C16: solve *)
(** solve returns exactly if there is an iteration after which the callback asks to stop for the first time.  The callback is
    called once after every iteration, and its effects on the Solution are kept. *)
Theorem solve_is_run : forall (W : Type) (s : solution) (cb : callback W) (rtol : R) (maxiter : option Z) (w w' : W) (s' : solution),
  (exists fuel, solve_method fuel s (Given cb) rtol maxiter w = Some (Returned w' s')) <->
  exists n before after world, solve_run cb s w n before after world /\ world n = w' /\ before n = s'.
Proof. intros W s cb rtol maxiter w w' s'. exact (solve_returns_iff cb s w w' s'). Qed.
Print Assumptions solve_is_run.

(** With callback=None the run ends at the first iteration that reaches a limit, and iterations are numbered from 1. *)
Theorem solve_limits : forall (W : Type) (s : solution) (rtol : R) (maxiter : option Z) (w w' : W) (s' : solution) fuel,
  solve_method fuel s NoneGiven rtol maxiter w = Some (Returned w' s') ->
  exists n before after world, solve_run (limits maxiter rtol) s w n before after world /\ before n = s' /\
    (forall i, (i < n)%nat -> iteration (after i) = Z.of_nat (i + 1)) /\
    (forall i, (i < n)%nat -> (limit_reached maxiter rtol (after i) <-> (i + 1 = n)%nat)).
Proof.
  intros W s rtol maxiter w w' s' fuel H. destruct (proj1 (solve_returns_iff (limits maxiter rtol) s w w' s') (ex_intro _ fuel H)) as (n & before & after & world & Hr & _ & Hs).
  exists n, before, after, world. split; [exact Hr|]. split; [exact Hs|]. exact (limits_run maxiter rtol s w n before after world Hr).
Qed.
Print Assumptions solve_limits.

(** The default never takes more than 10000 iterations; callback=None with a maximum never takes more than that (or 1). *)
Theorem solve_default_ends : forall (W : Type) (s : solution) (rtol : R) (maxiter : option Z) (w : W),
  solve_method (Z.to_nat 10000) s Missing rtol maxiter w <> None.
Proof. intros W s rtol maxiter w. apply (limits_end 10000 (/ 10000)); [lia|]. rewrite Z2Nat.id; lia. Qed.
Print Assumptions solve_default_ends.
Theorem solve_maxiter_ends : forall (W : Type) (s : solution) (rtol : R) (m : Z) (w : W),
  solve_method (Z.to_nat (Z.max 1 m)) s NoneGiven rtol (Some m) w <> None.
Proof. intros W s rtol m w. apply (limits_end m rtol); [lia|]. rewrite Z2Nat.id; lia. Qed.
Print Assumptions solve_maxiter_ends.
(** The function solve does the same as the method. *)
Theorem solve_function_is_method : forall (W : Type) fuel (s : solution) (cb : callback_arg W) (rtol : R) (maxiter : option Z) (w : W),
  solve_function fuel s cb rtol maxiter w = solve_method fuel s cb rtol maxiter w.
Proof. intros W fuel s cb rtol maxiter w. destruct cb; reflexivity. Qed.
Print Assumptions solve_function_is_method.
(** A callback that keeps a log and stops after the third call. *)
Example solve_run_case : let cb : callback (list Z) := fun w s => ((iteration s :: w), s, Ok (Z.ltb (iteration s) 3)) in
  exists s', solve_method 3 (construct demo_grid true false 2 (1, 3)%R 1 (TScalar demo_eps) tzero tzero (tuniform 1) (fun _ _ => 1) None (fun _ _ => 0)) (Given cb) 0 None [] = Some s'.
Proof. apply three_calls. Qed.

(** ** C17: rtol and maxiter without a callback *)
(** Given callback=None explicitly they are limits: see [solve_limits].  Without the argument they have no effect at all. *)
Theorem limits_ignored_refuted : forall (W : Type) fuel (s : solution) (rtol rtol' : R) (maxiter maxiter' : option Z) (w : W),
  solve_method fuel s Missing rtol maxiter w = solve_method fuel s Missing rtol' maxiter' w.
Proof. reflexivity. Qed.
Print Assumptions limits_ignored_refuted.
(** For every isotropic problem with a source, and whatever maxiter and rtol are, solve takes more than one iteration. *)
Theorem maxiter_one_refuted : forall (W : Type) v g k0 beta e mu (S : vfield) alpha_r kappa c p rtol maxiter (w : W),
  solvable v g k0 -> fits v mu -> (0 < beta)%R -> (c < (if v then 3 else 1))%nat -> inside (rshape g) p -> S c p <> 0 ->
  let alpha := choose_alpha g e beta alpha_r false kappa in
  solve_method 1 (construct g v false k0 alpha beta (TScalar e) tzero tzero mu S None (fun _ _ => 0)) Missing rtol maxiter w = None.
Proof. exact @maxiter_one. Qed.
Print Assumptions maxiter_one_refuted.
(** With callback=None and maxiter=0 one iteration is done. *)
Theorem maxiter_zero_refuted : forall (W : Type) (s s' : solution) (rtol : R) (w w' : W) fuel,
  solve_method fuel s NoneGiven rtol (Some 0%Z) w = Some (Returned w' s') -> iteration s' = 1%Z.
Proof. exact @maxiter_zero. Qed.
Print Assumptions maxiter_zero_refuted.

(** ** C18: E, source_distribution and j read back what was assigned *)
Theorem E_reads_back : forall u g v magnetic k0 alpha beta eps xi zeta mu S chi E0 l E l',
  k0 <> 0%R -> Forall keeps_field l' ->
  get_E (history u (l ++ OSetE E :: l') (construct g v magnetic k0 alpha beta eps xi zeta mu S chi E0)) = E.
Proof.
  intros u g v magnetic k0 alpha beta eps xi zeta mu S chi E0 l E l' Hk Hl. rewrite history_app, history_cons, (keep_field u l' _ Hl). cbn [perform].
  apply get_set_E. rewrite history_wavenumber. exact Hk.
Qed.
Print Assumptions E_reads_back.
Theorem initial_field_reads_back : forall u g v magnetic k0 alpha beta eps xi zeta mu S chi E0 l,
  k0 <> 0%R -> Forall keeps_field l ->
  get_E (history u l (construct g v magnetic k0 alpha beta eps xi zeta mu S chi E0)) = E0.
Proof.
  intros u g v magnetic k0 alpha beta eps xi zeta mu S chi E0 l Hk Hl. rewrite (keep_field u l _ Hl).
  apply (get_set_E (construct g v magnetic k0 alpha beta eps xi zeta mu S chi E0)). exact Hk.
Qed.
Print Assumptions initial_field_reads_back.
(** The source that is read is the last that was assigned, also after changes of the permittivity, of E and of alpha. *)
Theorem source_reads_back : forall u g v magnetic k0 alpha beta eps xi zeta mu S chi E0 l,
  snd alpha <> 0%R -> beta <> 0%R -> Forall sane l ->
  forall c p, get_source (history u l (construct g v magnetic k0 alpha beta eps xi zeta mu S chi E0)) c p = last_source u k0 l S c p.
Proof.
  intros u g v magnetic k0 alpha beta eps xi zeta mu S chi E0 l Ha Hb Hl c p.
  rewrite (source_any_history u l) by assumption. rewrite construct_source by assumption. reflexivity.
Qed.
Print Assumptions source_reads_back.
Theorem j_reads_back : forall u g v magnetic k0 alpha beta eps xi zeta mu S chi E0 l J l',
  physical u -> k0 <> 0%R -> snd alpha <> 0%R -> beta <> 0%R -> Forall sane (l ++ OSetJ J :: l') ->
  Forall (fun a => match a with OSetSource _ | OSetJ _ => False | _ => True end) l' ->
  forall c p, get_j u (history u (l ++ OSetJ J :: l') (construct g v magnetic k0 alpha beta eps xi zeta mu S chi E0)) c p = J c p.
Proof.
  intros u g v magnetic k0 alpha beta eps xi zeta mu S chi E0 l J l' Hu Hk Ha Hb Hl Hl' c p.
  apply (j_history u g v magnetic k0 alpha beta eps xi zeta mu S chi E0 l J l'); assumption.
Qed.
Print Assumptions j_reads_back.
(** Assigning E does not change the source (see [source_reads_back]) and assigning the source does not change E: *)
Theorem source_keeps_E : forall u s a, (exists x, a = OSetSource x \/ a = OSetJ x) -> get_E (perform u s a) = get_E s.
Proof. intros u s a (x & [-> | ->]); reflexivity. Qed.
Print Assumptions source_keeps_E.

(** ** C19: epsilon *)
(** What reading epsilon gives after any history that does not assign it: the permittivity of the user, without that of the
    bound, minus alpha beta. *)
Theorem epsilon_read_partial : forall u g v k0 alpha beta eps mu S chi E l,
  solvable v g k0 -> snd alpha <> 0%R -> beta <> 0%R -> Forall keeps_material l ->
  let s := history u l (construct g v false k0 alpha beta eps tzero tzero mu S chi E) in
  exists alpha' : C, snd alpha' <> 0%R /\
    forall (F : vfield) c p, (c < (if v then 3 else 1))%nat -> tapply (get_epsilon s) F c p = tapply eps F c p - alpha' * RtoC beta * F c p.
Proof. exact get_epsilon_history. Qed.
Print Assumptions epsilon_read_partial.
(** So that it is never what the user gave. *)
Theorem epsilon_read_refuted : forall u g v k0 alpha beta eps mu S chi E l,
  solvable v g k0 -> snd alpha <> 0%R -> beta <> 0%R -> Forall keeps_material l ->
  let s := history u l (construct g v false k0 alpha beta eps tzero tzero mu S chi E) in
  forall (F : vfield) c p, (c < (if v then 3 else 1))%nat -> F c p <> 0 -> tapply (get_epsilon s) F c p <> tapply eps F c p.
Proof. exact get_epsilon_wrong. Qed.
Print Assumptions epsilon_read_refuted.
(** Without absorbing bound, assigning epsilon poses the problem that the constructor would. *)
Theorem epsilon_assign_partial : forall u g v k0 alpha beta eps eps' (m : C) S E l alpha' beta',
  solvable v g k0 -> snd alpha <> 0%R -> snd alpha' <> 0%R -> beta <> 0%R -> m <> 0 -> Forall keeps_material l ->
  let s := history u l (construct g v false k0 alpha beta eps tzero tzero (tuniform m) S None E) in
  operators (set_epsilon s eps' false alpha' beta') =
  operators (construct g v false k0 alpha' beta' eps' tzero tzero (tuniform m) (last_source u k0 l S) None E).
Proof. exact set_epsilon_as_construct. Qed.
Print Assumptions epsilon_assign_partial.
(** With a bound of susceptibility x, a field for which the iteration stops after assigning eps' does not satisfy the wave
    equation for eps' plus the bound, wherever the field and the bound are not zero. *)
Theorem epsilon_assign_refuted : forall u g v k0 alpha beta eps (m : C) S E l (x e' : sfield) alpha_r kappa (F : vfield),
  solvable v g k0 -> snd alpha <> 0%R -> (0 < beta)%R -> m <> 0 -> Forall keeps_material l ->
  let s := history u l (construct g v false k0 alpha beta eps tzero tzero (tuniform m) S (Some x) E) in
  let alpha' := choose_alpha g (fun p => e' p - x p) beta alpha_r false kappa in
  let s' := set_E (set_epsilon s (TScalar e') false alpha' beta) F in
  change s' (fst (next true s')) = 0%R ->
  wave_equation v g k0 beta (TScalar (fun p => e' p + x p)) F (last_source u k0 l S) ->
  forall c p, (c < (if v then 3 else 1))%nat -> inside (rshape g) p -> x p * F c p = 0.
Proof. exact set_epsilon_wrong. Qed.
Print Assumptions epsilon_assign_refuted.

(** ** C23: the residue *)
(** Read after an iteration, and any further iterations and reads, the residue is the norm of the last update relative to that of E. *)
Theorem residue_partial : forall u g v magnetic k0 alpha beta eps xi zeta mu S chi E0 l fresh l' r,
  k0 <> 0%R -> Forall iterates_or_reads l' ->
  let s := history u (l ++ ONext fresh :: l') (construct g v magnetic k0 alpha beta eps xi zeta mu S chi E0) in
  snd (read_residue s) = Ok r -> residue_is s r.
Proof.
  intros u g v magnetic k0 alpha beta eps xi zeta mu S chi E0 l fresh l' r Hk Hl s. unfold s. rewrite history_app.
  apply residue_current; try assumption; [rewrite history_wavenumber; exact Hk|apply norm_ok_history; exact I].
Qed.
Print Assumptions residue_partial.
(** After reading it and assigning E, it is still the old value. *)
Theorem residue_refuted : forall u g v magnetic k0 alpha beta eps xi zeta mu S chi E0 l fresh s1 r E,
  next fresh (history u l (construct g v magnetic k0 alpha beta eps xi zeta mu S chi E0)) = (s1, None) -> snd (read_residue s1) = Ok r ->
  let s2 := set_E (fst (read_residue s1)) E in
  snd (read_residue s2) = Ok r /\ forall r', residue_is s2 r' -> r' <> r.
Proof.
  intros u g v magnetic k0 alpha beta eps xi zeta mu S chi E0 l fresh s1 r E H1 H2.
  apply (residue_stale (history u l (construct g v magnetic k0 alpha beta eps xi zeta mu S chi E0)) fresh s1 r E); [apply norm_ok_history; exact I|exact H1|exact H2].
Qed.
Print Assumptions residue_refuted.

(** Such a history: the first iteration of the problem below, after which the residue is 1. *)
Example residue_case : exists s1,
  next true (construct demo_grid true false 2 (choose_alpha demo_grid demo_eps 1 1 false None) 1 (TScalar demo_eps) tzero tzero (tuniform 1) (fun _ _ => 1) None (fun _ _ => 0)) = (s1, None) /\
  snd (read_residue s1) = Ok (Fin 1).
Proof.
  apply (first_step true demo_grid 2 1 demo_eps (tuniform 1) (fun _ _ => 1) 1 None 0 [0; 0]%nat); [exact (proj1 fixed_point_hypotheses)|exact I|lra|cbn; lia|repeat constructor|intros H; injection H; lra].
Qed.

(** ** C51 and C73: no source *)
Theorem no_source_no_field : forall (W : Type) g v magnetic k0 alpha beta eps xi zeta mu chi (cb : callback_arg W) rtol maxiter (w : W) fuel,
  (0 <= rtol)%R -> match cb with Given _ => False | _ => True end ->
  exists s', solve_method (Datatypes.S fuel) (construct g v magnetic k0 alpha beta eps xi zeta mu (fun _ _ => 0) chi (fun _ _ => 0)) cb rtol maxiter w = Some (Returned w s') /\
    iteration s' = 1%Z /\ (forall c p, get_E s' c p = 0) /\ snd (read_residue s') = Ok (Fin 0).
Proof. exact @rest_construct. Qed.
Print Assumptions no_source_no_field.
(** C73: iterating once more raises ZeroDivisionError, after no source as after any other update that is exactly zero. *)
Theorem exact_solution_iterates_refuted : forall (W : Type) g v magnetic k0 alpha beta eps xi zeta mu chi rtol maxiter (w : W) fuel fresh s',
  (0 <= rtol)%R ->
  solve_method (Datatypes.S fuel) (construct g v magnetic k0 alpha beta eps xi zeta mu (fun _ _ => 0) chi (fun _ _ => 0)) Missing rtol maxiter w = Some (Returned w s') ->
  snd (next fresh s') = Some ZeroDivisionError.
Proof. exact @rest_again. Qed.
Print Assumptions exact_solution_iterates_refuted.

(** ** C74: solve ends *)
(** For every isotropic medium without gain whose wave equation has a solution, solve from a zero field returns, without exception
    and without having changed the preconditioner, when a limit is reached. *)
Theorem solve_ends : forall (W : Type) v g k0 beta e mu S alpha_r kappa E rtol maxiter (w : W),
  solvable v g k0 -> fits v mu -> (0 < beta)%R -> (forall p, inside (rshape g) p -> (0 <= snd (e p))%R) ->
  wave_equation v g k0 beta (TScalar e) E S -> (0 < rtol)%R ->
  let alpha := choose_alpha g e beta alpha_r false kappa in
  let s := construct g v false k0 alpha beta (TScalar e) tzero tzero mu S None (fun _ _ => 0) in
  exists fuel s', solve_method fuel s NoneGiven rtol maxiter w = Some (Returned w s') /\
    operators s' = operators s /\ limit_reached maxiter rtol s'.
Proof. exact @solve_ends_isotropic. Qed.
Print Assumptions solve_ends.
(** C74, any alpha that exceeds the deviation of the medium, isotropic or not. *)
Theorem solve_ends_anisotropic : forall (W : Type) v g k0 alpha beta eps mu S rho E rtol maxiter (w : W),
  solvable v g k0 -> fits v eps -> fits v mu -> (0 < snd alpha)%R -> (0 < beta)%R ->
  let n := (if v then 3 else 1)%nat in
  absorbs n (rshape g) eps 0 -> deviates n (rshape g) eps beta (fst alpha) (rho * snd alpha) -> (0 <= rho < 1)%R ->
  wave_equation v g k0 beta eps E S -> (0 < rtol)%R ->
  let s := construct g v false k0 alpha beta eps tzero tzero mu S None (fun _ _ => 0) in
  exists fuel s', solve_method fuel s NoneGiven rtol maxiter w = Some (Returned w s') /\
    operators s' = operators s /\ limit_reached maxiter rtol s'.
Proof. exact @solve_ends_general. Qed.
Print Assumptions solve_ends_anisotropic.

(** ** C75: the tolerance bounds the error *)
(** In a medium that absorbs everywhere, solve with tolerance rtol returns a field whose distance to the only solution is at most a
    constant of the problem times rtol, relative to the field. *)
Theorem solve_accurate : forall (W : Type) v g k0 beta e mu S alpha_r kappa loss (w : W),
  solvable v g k0 -> fits v mu -> (0 < beta)%R -> (0 < loss)%R -> (forall p, inside (rshape g) p -> (loss <= snd (e p))%R) ->
  let alpha := choose_alpha g e beta alpha_r false kappa in
  let s := construct g v false k0 alpha beta (TScalar e) tzero tzero mu S None (fun _ _ => 0) in
  exists E K, wave_equation v g k0 beta (TScalar e) E S /\
    (forall E', wave_equation v g k0 beta (TScalar e) E' S -> vagree (if v then 3 else 1) (rshape g) E' E) /\
    forall rtol, (0 < rtol)%R -> exists fuel s', solve_method fuel s NoneGiven rtol None w = Some (Returned w s') /\
      (magnitude s' (fun c p => get_E s' c p - E c p)%C <= K * rtol * magnitude s' (get_E s'))%R.
Proof. exact @solve_accurate_isotropic. Qed.
Print Assumptions solve_accurate.

Example solve_hypotheses : solvable true demo_grid 2 /\ fits true (tuniform 1) /\ (0 < /2)%R /\
  (forall p, inside (rshape demo_grid) p -> (/2 <= snd (demo_eps p))%R).
Proof. exact lossy_hypotheses. Qed.
