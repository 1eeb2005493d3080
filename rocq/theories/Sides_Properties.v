(** The arguments of absorbing boundaries: C202. *)
From Coq Require Import Reals Lra.
From Verif Require Import Base Num Grid_Model Grid_Spec Bound_Model Bound_Spec Bound_Proofs Bound_Properties Sides_Proofs.
Local Open Scope R_scope.

(** A LinearBound that is created has on each axis and side the thickness and the maximum extinction coefficient that the arguments state: as a number, as a pair for front and back, or as an array with a row per axis.
    Arguments of any other size are rejected with a ValueError, and no others are. *)
Theorem linear_bound_sides : forall (g : grid RN) (t k : sides_arg R),
  (forall b, linear_bound RN g t k = Ok b -> broadcastable (ndim RN g) t /\ broadcastable (ndim RN g) k /\
    forall a s, (a < ndim RN g)%nat -> (s < 2)%nat -> (forall x, sided t a s x <-> x = thickness RN b a s) /\ (forall kmax, sided k a s kmax -> forall x, kappa_function RN b a s x = kmax * x)) /\
  (forall e, linear_bound RN g t k = Err e -> e = ValueError /\ ~ (broadcastable (ndim RN g) t /\ broadcastable (ndim RN g) k)).
Proof. exact linear_sides. Qed.
Print Assumptions linear_bound_sides.
(** So for an AbsorbingBound, with any functions of the depth. *)
Theorem absorbing_bound_sides : forall (g : grid RN) (t : sides_arg R) (f : sides_arg (R -> R)),
  (forall b, absorbing_bound RN g t f = Ok b -> broadcastable (ndim RN g) t /\ broadcastable (ndim RN g) f /\
    forall a s, (a < ndim RN g)%nat -> (s < 2)%nat -> (forall x, sided t a s x <-> x = thickness RN b a s) /\ (forall h, sided f a s h <-> h = kappa_function RN b a s)) /\
  (forall e, absorbing_bound RN g t f = Err e -> e = ValueError /\ ~ (broadcastable (ndim RN g) t /\ broadcastable (ndim RN g) f)).
Proof. exact absorbing_sides. Qed.
Print Assumptions absorbing_bound_sides.

(** ** Concrete cases *)
(** linear_bound_ex (Bound_Properties) is a boundary that is created: the front of its second axis has thickness 2 and the back 3. *)
Example sides_ex : exists g b, linear_bound RN g (SMatrix [[0; 0]; [2; 3]]) (SVector [/ 4; / 2]) = Ok b /\ thickness RN b 1 0 = 2 /\ thickness RN b 1 1 = 3 /\ kappa_function RN b 0 1 1 = / 2 * 1.
Proof.
  destruct linear_bound_ex as (g & b & _ & N & _ & _ & B & _). exists g, b. split; [exact B|]. destruct (proj1 (linear_bound_sides g _ _) b B) as (_ & _ & S). rewrite N in S.
  split; [|split].
  - symmetry. apply (proj1 (S 1%nat 0%nat ltac:(auto) ltac:(auto))). exists [2; 3]. split; reflexivity.
  - symmetry. apply (proj1 (S 1%nat 1%nat ltac:(auto) ltac:(auto))). exists [2; 3]. split; reflexivity.
  - apply (proj2 (S 0%nat 1%nat ltac:(auto) ltac:(auto))). reflexivity.
Qed.
(** A vector with a thickness for each of three axes is rejected. With two axes it would be read as that of the front and the back of both. *)
Example axis_vector : forall g k, linear_bound RN g (SVector [1; 2; 3]) k = Err ValueError.
Proof. reflexivity. Qed.
