(** C184: interrupting an assignment to a Solution does no harm. *)
From Coq Require Import Reals Lra Lia List Arith ZArith Bool FunctionalExtensionality.
Require Import Verif.Base Verif.Cplx Verif.CSum Verif.Field Verif.Fourier_Model Verif.Vec_Model Verif.Solver_Model Verif.Derived_Model Verif.Run_Model Verif.Interrupt_Spec
  Verif.Interrupt_Refuted Verif.Assign_Model Verif.Assign_Spec Verif.Assign_Proofs.
Import ListNotations.
Local Open Scope R_scope.
Local Open Scope C_scope.

(** C184.  The statements, if they are all executed, are the assignments. *)
Theorem assigned_completely : forall u s E src J epsilon magnetic alpha beta,
  execute (assign_E s E) s = set_E s E /\ execute (assign_source src) s = set_source s src /\ execute (assign_j u s J) s = set_j u s J
  /\ execute (assign_epsilon s epsilon magnetic alpha beta) s = set_epsilon s epsilon magnetic alpha beta.
Proof. intros. exact (conj (all_E s E) (conj (all_source s src) (conj (all_source s _) (all_epsilon s epsilon magnetic alpha beta)))). Qed.
Print Assumptions assigned_completely.

(** C184.  An assignment of E that is interrupted was not started, or was completed, or was completed but for the norm of the last update,
    which is that from before; and repeating it makes good. *)
Theorem interrupted_E : forall s E k, let t := interrupted k (assign_E s E) s in
  (t = s \/ t = set_prev_norm (set_E s E) (prev_norm s) \/ t = set_E s E) /\ set_E t E = set_E s E.
Proof.
  intros s E k t. split; [|exact (retry_E s E k)].
  destruct (cut_E s E k) as [(_ & H) | [(_ & H) | (_ & H)]]; [left|right; left|right; right]; exact H.
Qed.
Print Assumptions interrupted_E.

(** C184.  The same for an assignment of the source. *)
Theorem interrupted_source : forall s src k, let t := interrupted k (assign_source src) s in
  (t = s \/ t = set_prev_norm (set_source s src) (prev_norm s) \/ t = set_source s src) /\ set_source t src = set_source s src.
Proof.
  intros s src k t. split; [|exact (retry_source s src k)].
  destruct (cut_source s src k) as [(_ & H) | [(_ & H) | (_ & H)]]; [left|right; left|right; right]; exact H.
Qed.
Print Assumptions interrupted_source.

(** C184.  But if the assignment of E is interrupted before its last statement, the next iteration can be refused because of the norm of an update
    to the former field: then the field does not change and the bias is increased, in any medium; while after the complete assignment it changes. *)
Theorem interrupted_E_refuted : forall fresh s E, refuses (interrupted 1 (assign_E s E) s) ->
  let t := interrupted 1 (assign_E s E) s in
  get_E (fst (next fresh t)) = get_E t /\ snd (o_alpha (operators (fst (next fresh t)))) = (15 / 10 * snd (o_alpha (operators s)))%R
  /\ field (fst (next fresh (set_E s E))) = next_field (operators s) (field t) /\ operators (fst (next fresh (set_E s E))) = operators s.
Proof. exact E_refused. Qed.
Print Assumptions interrupted_E_refuted.

(** C184.  Wherever the assignment of a permittivity is interrupted, E, the wavenumber and the number of iterations are as before. *)
Theorem interrupted_epsilon_partial : forall s epsilon magnetic alpha beta k,
  let t := interrupted k (assign_epsilon s epsilon magnetic alpha beta) s in
  get_E t = get_E s /\ wavenumber t = wavenumber s /\ iteration t = iteration s.
Proof.
  intros s epsilon magnetic alpha beta k t. destruct (cut_epsilon_E s epsilon magnetic alpha beta k) as (A & B & _ & D & _). exact (conj A (conj B D)).
Qed.
Print Assumptions interrupted_epsilon_partial.

(** C184.  The source is not: it reads as before in the beginning and in the end, but is scaled by the ratio of the constants of the preconditioner in between. *)
Theorem interrupted_epsilon_source : forall s epsilon magnetic alpha beta,
  snd alpha <> 0%R -> beta <> 0%R -> snd (o_alpha (operators s)) <> 0%R -> o_beta (operators s) <> 0%R ->
  forall k c p, get_source (interrupted k (assign_epsilon s epsilon magnetic alpha beta) s) c p =
    (if Nat.leb k 1 then 1
     else if Nat.leb k 2 then RtoC beta / RtoC (o_beta (operators s))
     else if Nat.leb k 8 then RtoC beta * im alpha / (RtoC (o_beta (operators s)) * im (o_alpha (operators s)))
     else 1) * get_source s c p.
Proof. exact cut_epsilon_source. Qed.
Print Assumptions interrupted_epsilon_source.

(** C184.  Nor does it help to assign the permittivity again, that one or any other: the source stays scaled. *)
Theorem interrupted_epsilon_refuted : forall s epsilon magnetic alpha beta epsilon' magnetic' alpha' beta',
  snd alpha <> 0%R -> beta <> 0%R -> snd (o_alpha (operators s)) <> 0%R -> o_beta (operators s) <> 0%R -> snd alpha' <> 0%R -> beta' <> 0%R ->
  forall k c p, (3 <= k <= 8)%nat ->
  get_source (set_epsilon (interrupted k (assign_epsilon s epsilon magnetic alpha beta) s) epsilon' magnetic' alpha' beta') c p =
    RtoC beta * im alpha / (RtoC (o_beta (operators s)) * im (o_alpha (operators s))) * get_source s c p.
Proof.
  intros s epsilon magnetic alpha beta epsilon' magnetic' alpha' beta' H1 H2 H3 H4 H5 H6 k c p Hk.
  rewrite epsilon_keeps_source by assumption. rewrite cut_epsilon_source by assumption.
  do 3 (destruct k as [|k]; [lia|]). cbn [Nat.leb]. do 6 (destruct k as [|k]; [reflexivity|]). lia.
Qed.
Print Assumptions interrupted_epsilon_refuted.

(** C184.  In media that are not magnetic, assigning the permittivity again and then also the source makes good, wherever the interruption came. *)
Theorem interrupted_epsilon_recovery : forall s epsilon alpha src k, plain (operators s) -> o_beta (operators s) <> 0%R ->
  let beta := o_beta (operators s) in
  let t := interrupted k (assign_epsilon s epsilon false alpha beta) s in
  set_source (set_epsilon t epsilon false alpha beta) src = set_source (set_epsilon s epsilon false alpha beta) src.
Proof. exact recovery. Qed.
Print Assumptions interrupted_epsilon_recovery.

(** A Solution that the hypotheses of these theorems hold for: one point, not magnetic; the permittivity 2 is assigned to it, with another alpha. *)
Example assign_hypotheses : plain (operators driven_start) /\ o_beta (operators driven_start) <> 0%R /\ snd (o_alpha (operators driven_start)) <> 0%R
  /\ o_alpha (operators driven_start) <> (0, 1)%R.
Proof.
  refine (conj (conj eq_refl _) (conj _ (conj _ _))).
  - eexists. split; [reflexivity|]. cbn -[Cmult Cplus Cdiv Copp]. unfold Ci, im, RtoC. apply injective_projections; cbn; field.
  - cbn. lra.
  - cbn. lra.
  - intro H. apply (f_equal snd) in H. cbn in H. lra.
Qed.
(** One point after one iteration; its own field is assigned to it. *)
Example assign_refused : let s := fst (next true driven_start) in refuses (interrupted 1 (assign_E s (get_E s)) s).
Proof.
  intro s. assert (E : field (interrupted 1 (assign_E s (get_E s)) s) = field s).
  { extensionality c. extensionality p. cbn [interrupted firstn assign_E execute fold_left set_field field]. unfold get_E, electric_field.
    change (wavenumber s) with 1%R. rewrite Rmult_1_r. field. apply real_nonzero. lra. }
  destruct driven_refused as (H & _). fold s in H. unfold refuses in *.
  change (prev_norm (interrupted 1 (assign_E s (get_E s)) s)) with (prev_norm s).
  change (operators (interrupted 1 (assign_E s (get_E s)) s)) with (operators s). rewrite E. exact H.
Qed.
