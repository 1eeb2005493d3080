(** C40: the adaptive stop criterion. *)
From Coq Require Import Reals.
From Verif Require Import Base Adaptive_Model Adaptive_Proofs.
Local Open Scope R_scope.

(** It only ends a run when the residue is under the target or the maximum iteration count is reached. *)
Theorem adaptive_stops_only_for_a_reason : forall (t : R) (c : Z) (r : nat -> R) (n : nat) (a : adaptive),
  run (make t c) r (S n) = (a, Ok false) -> snd (run (make t c) r n) = Ok true ->
  r (S n) < t \/ (c <= Z.of_nat (S n))%Z.
Proof. exact run_reason. Qed.
Print Assumptions adaptive_stops_only_for_a_reason.
Example adaptive_stops_only_for_a_reason_ex : forall r t,
  (exists a, run (make t 2) r 2 = (a, Ok false)) /\ snd (run (make t 2) r 1) = Ok true.
Proof. intros r t. rewrite run_2, run_1. split; [eexists|]; reflexivity. Qed.

(** For geometrically decreasing residues it stops exactly at the first iteration with a residue under the
    target (or at 52 when that is earlier), and at most two iterations after the maximum iteration count. *)
Theorem adaptive_geometric_stop : forall (t A q : R) (c : Z),
  0 < t -> 0 < A -> 0 < q < 1 ->
  forall N : nat, A * q ^ N < t -> (forall n, (n < N)%nat -> t <= A * q ^ n) -> (1 <= c)%Z ->
  exists n,
    (snd (run (make t c) (fun n => A * q ^ n) n) = Ok false /\
     forall m, (m < n)%nat -> snd (run (make t c) (fun n => A * q ^ n) m) = Ok true) /\
    ((Z.of_nat (Nat.max 52 N) < c)%Z -> n = Nat.max 52 N) /\
    ((c <= Z.of_nat (Nat.max 52 N))%Z -> (c <= Z.of_nat n <= c + 2)%Z).
Proof. exact geometric_stop. Qed.
Print Assumptions adaptive_geometric_stop.
Example adaptive_geometric_stop_ex : 0 < 1/2 /\ 0 < 1 /\ 0 < 1/2 < 1 /\ 1 * (1/2) ^ 2 < 1/2 /\
  (forall n, (n < 2)%nat -> 1/2 <= 1 * (1/2) ^ n) /\ (1 <= 100)%Z.
Proof.
  repeat split; try Lra.lra; [|lia].
  intros [|[|n]] Hn; cbn; [Lra.lra|Lra.lra|lia].
Qed.

(** Reusing the object for another run gives the decisions of a new object. *)
Theorem adaptive_reuse_starts_afresh : forall (t : R) (c : Z) (r1 : nat -> R) (n1 : nat) (r2 : nat -> R) (n2 : nat),
  snd (run (fst (run (make t c) r1 n1)) r2 n2) = snd (run (make t c) r2 n2).
Proof. exact reuse. Qed.
Print Assumptions adaptive_reuse_starts_afresh.

(** No exception as long as no residue value repeats exactly. *)
Theorem adaptive_no_exception_partial : forall (t : R) (c : Z) (r : nat -> R),
  0 < t -> (forall n, 0 < r n) -> (forall n m, n <> m -> r n <> r m) ->
  forall n e, snd (run (make t c) r n) <> Err e.
Proof. exact run_no_error. Qed.
Print Assumptions adaptive_no_exception_partial.
Example adaptive_no_exception_ex : (forall n, 0 < INR n + 1) /\ (forall n m, n <> m -> INR n + 1 <> INR m + 1).
Proof.
  split; [intros n; pose proof (pos_INR n); Lra.lra|].
  intros n m H E. apply H, INR_eq. Lra.lra.
Qed.

(** The maximum iteration count is not a bound: growing residues are followed for ever, whatever the maximum. *)
Theorem adaptive_cap_refuted : exists (t : R) (r : nat -> R), 0 < t /\ (forall n, 0 < r n) /\
  forall c, (51 < c)%Z -> forall n, snd (run (make t c) r n) = Ok true.
Proof. exact diverges_witness. Qed.
Print Assumptions adaptive_cap_refuted.

(** More generally for every increasing sequence above the target. *)
Theorem adaptive_never_stops_when_growing : forall (t : R) (c : Z) (r : nat -> R),
  0 < t <= r 52%nat -> 0 < r 27%nat < r 52%nat -> (51 < c)%Z ->
  (forall n, (52 <= n)%nat -> r n < r (S n)) ->
  forall n, snd (run (make t c) r n) = Ok true.
Proof. exact run_diverges. Qed.
Print Assumptions adaptive_never_stops_when_growing.
Example adaptive_never_stops_when_growing_ex : 0 < 1 <= INR 52 /\ 0 < INR 27 < INR 52 /\
  (forall n, (52 <= n)%nat -> INR n < INR (S n)).
Proof.
  assert (1 <= INR 52) by (replace 1 with (INR 1) by reflexivity; apply le_INR; lia).
  assert (0 < INR 27) by (apply lt_0_INR; lia).
  assert (INR 27 < INR 52) by (apply lt_INR; lia).
  repeat split; try Lra.lra. intros n _. rewrite S_INR. Lra.lra.
Qed.

(** Stagnation: an unchanged residue at the second check raises an exception. *)
Theorem adaptive_no_exception_refuted : forall (t : R) (c : Z) (r : nat -> R),
  0 < t <= r 52%nat -> r 27%nat = r 52%nat -> (51 < c)%Z ->
  exists e, snd (run (make t c) r 52) = Err e.
Proof. exact run_stagnates. Qed.
Print Assumptions adaptive_no_exception_refuted.
Example adaptive_no_exception_refuted_ex : 0 < 1 <= (fun _ : nat => 1) 52%nat /\ (fun _ : nat => 1) 27%nat = (fun _ : nat => 1) 52%nat.
Proof. split; [Lra.lra|reflexivity]. Qed.
