(** Proofs about the arguments of absorbing boundaries: C202. *)
From Coq Require Import Reals Lra.
From Verif Require Import Base Num Grid_Model Grid_Spec Bound_Model Bound_Spec Bound_Proofs Grid_Proofs.
Local Open Scope R_scope.

Lemma broadcast1_length {A} n (l : list A) d f : broadcast1 n l d = Ok f -> length l = 1%nat \/ length l = n.
Proof.
  unfold broadcast1. destruct l as [|y [|z l]]; [|left; reflexivity|]; match goal with |- context [Nat.eqb ?m n] => destruct (Nat.eqb_spec m n) as [E|E] end; intros H; try discriminate H; right; exact E.
Qed.
Lemma broadcast1_error {A} n (l : list A) d e : broadcast1 n l d = Err e -> e = ValueError.
Proof. unfold broadcast1. destruct l as [|y [|z l]]; [|discriminate|]; (destruct (Nat.eqb _ n); [discriminate|]); intros H; injection H as <-; reflexivity. Qed.
Lemma broadcast_sides_only {A} n (a : sides_arg A) d f : broadcast_sides n a d = Ok f -> broadcastable n a.
Proof.
  destruct a as [x|l|rows]; cbn [broadcast_sides broadcastable]; [intros _; exact I| |].
  - intros H. apply bind_ok in H as (g & H & _). exact (broadcast1_length 2 l d g H).
  - destruct (forallb _ rows) eqn:F; [|discriminate]. intros H. apply bind_ok in H as (g & H & E). apply bind_ok in E as (h & E & _).
    split; [exact (broadcast1_length n rows [] g H)|]. exists (length (nth 0 rows [])). split; [exact (broadcast1_length 2 _ d h E)|]. split.
    + intros ->. discriminate E.
    + rewrite forallb_forall in F. intros r Hr. apply Nat.eqb_eq, F, Hr.
Qed.
Lemma broadcast_sides_error {A} n (a : sides_arg A) d e : broadcast_sides n a d = Err e -> e = ValueError.
Proof.
  destruct a as [x|l|rows]; cbn [broadcast_sides]; [discriminate| |].
  - destruct (broadcast1 2 l d) eqn:B; cbn; [discriminate|]. intros H. injection H as <-. exact (broadcast1_error _ _ _ _ B).
  - destruct (forallb _ rows); [|intros H; injection H as <-; reflexivity]. destruct (broadcast1 n rows []) eqn:B; cbn [bind].
    + destruct (broadcast1 2 (nth 0 rows []) d) eqn:B'; cbn [bind]; [discriminate|]. intros H. injection H as <-. exact (broadcast1_error _ _ _ _ B').
    + intros H. injection H as <-. exact (broadcast1_error _ _ _ _ B).
Qed.
Lemma map_broadcastable {A B} (F : A -> B) n a : broadcastable n (sides_map F a) -> broadcastable n a.
Proof.
  destruct a as [x|l|rows]; cbn; [trivial|rewrite map_length; trivial|]. rewrite map_length. intros (L & c & Hc & Ne & E). split; [exact L|]. exists c. split; [exact Hc|]. split; [intros ->; apply Ne; reflexivity|].
  intros r Hr. rewrite <- (map_length F). apply E, in_map, Hr.
Qed.
Lemma sided_map {A B} (F : A -> B) a axis side x : sided a axis side x -> sided (sides_map F a) axis side (F x).
Proof.
  assert (forall (X Y : Type) (h : X -> Y) (l : list X) i y, pick l i y -> pick (map h l) i (h y)) as P.
  { intros X Y h l i y. destruct l as [|u [|v l]]; cbn [pick map]; [destruct i; discriminate|intros ->; reflexivity|]. intros E. change (nth_error (map h (u :: v :: l)) i = Some (h y)). apply map_nth_error, E. }
  destruct a as [y|l|rows]; cbn [sided sides_map]; [intros ->; reflexivity|apply P|]. intros (row & E & E'). exists (map F row). split; apply P; assumption.
Qed.

Theorem absorbing_sides g t f :
  (forall b, absorbing_bound RN g t f = Ok b -> broadcastable (ndim RN g) t /\ broadcastable (ndim RN g) f /\
    forall a s, (a < ndim RN g)%nat -> (s < 2)%nat -> (forall x, sided t a s x <-> x = thickness RN b a s) /\ (forall h, sided f a s h <-> h = kappa_function RN b a s)) /\
  (forall e, absorbing_bound RN g t f = Err e -> e = ValueError /\ ~ (broadcastable (ndim RN g) t /\ broadcastable (ndim RN g) f)).
Proof.
  unfold absorbing_bound. split.
  - intros b H. apply bind_ok in H as (t' & T & H). apply bind_ok in H as (f' & F & H). injection H as <-. split; [exact (broadcast_sides_only _ _ _ _ T)|]. split; [exact (broadcast_sides_only _ _ _ _ F)|].
    intros a s Ha Hs. split; intros x; cbn; eapply broadcast_sides_sided; eassumption.
  - intros e H. split.
    + destruct (broadcast_sides (ndim RN g) t _) eqn:T; cbn [bind] in H; [|injection H as <-; exact (broadcast_sides_error _ _ _ _ T)].
      destruct (broadcast_sides (ndim RN g) f _) eqn:F; cbn [bind] in H; [discriminate|]. injection H as <-. exact (broadcast_sides_error _ _ _ _ F).
    + intros [HT HF]. destruct (absorbing_created g t f HT HF) as (b & B). unfold absorbing_bound in B. rewrite B in H. discriminate H.
Qed.
Theorem linear_sides g t k :
  (forall b, linear_bound RN g t k = Ok b -> broadcastable (ndim RN g) t /\ broadcastable (ndim RN g) k /\
    forall a s, (a < ndim RN g)%nat -> (s < 2)%nat -> (forall x, sided t a s x <-> x = thickness RN b a s) /\ (forall kmax, sided k a s kmax -> forall x, kappa_function RN b a s x = kmax * x)) /\
  (forall e, linear_bound RN g t k = Err e -> e = ValueError /\ ~ (broadcastable (ndim RN g) t /\ broadcastable (ndim RN g) k)).
Proof.
  unfold linear_bound. set (F := fun (k rel_depth : R) => nmul RN k rel_depth). destruct (absorbing_sides g t (sides_map F k)) as [P Q]. split.
  - intros b B. destruct (P b B) as (T & M & S). split; [exact T|]. split; [exact (map_broadcastable F _ k M)|]. intros a s Ha Hs. destruct (S a s Ha Hs) as [S1 S2]. split; [exact S1|].
    intros kmax Hk x. rewrite <- (proj1 (S2 _) (sided_map F k a s kmax Hk)). reflexivity.
  - intros e B. destruct (Q e B) as [E Q']. split; [exact E|]. intros [HT HK]. apply Q'. split; [exact HT|]. apply broadcastable_map, HK.
Qed.
