(** Expressions of matrices: C150 and C151. *)
From Coq Require Import Reals Lra List Arith Bool ZArith Lia.
Require Import Verif.Base Verif.Cplx Verif.CSum Verif.Matrix_Model Verif.Matrix_Spec Verif.Matrix_Proofs Verif.Algebra_Model Verif.Algebra_Spec Verif.Algebra_Proofs.
Import ListNotations.
Local Open Scope R_scope.
Local Open Scope C_scope.

(** ** C150: sums, differences, multiples, products and powers *)
Theorem expressions_multiply : forall t, sound t -> conformable t -> exists O, evaluate t = Ok O /\ op_shape O = (rows t, cols t) /\
  forall v, exists w, op_matvec O v = Ok w /\ same (rows t) w (fun i => csum (cols t) (fun j => meaning t i j * v j)).
Proof. exact evaluate_acts. Qed.
Print Assumptions expressions_multiply.
Theorem expressions_refused : forall t, ~ conformable t -> evaluate t = Err ValueError.
Proof. exact evaluate_refuses. Qed.
Print Assumptions expressions_refused.

(** Two matrices, a rectangular one and a square one. *)
Definition wide : matrix := {| mrows := 2%nat; mcols := 3%nat; mcontents := Array (fun i j => RtoC (INR (i + 2 * j))) |}.
Definition shear : matrix := {| mrows := 2%nat; mcols := 2%nat; mcontents := Array (fun i j => match i, j with 0%nat, 0%nat => 1 | 0%nat, 1%nat => Ci | 1%nat, 1%nat => RtoC 2 | _, _ => 0 end) |}.
Definition given (M : matrix) : term := Given M (match mcontents M with Array a => a | _ => fun _ _ => 0 end).
Example expressions_ex : let t := Minus (Dot (Pow (given shear) 3) (given wide)) (Multiple Ci (Opposite (given wide))) in sound t /\ conformable t /\ rows t = 2%nat /\ cols t = 3%nat.
Proof. cbn. refine (conj (conj (conj _ _) _) (conj _ (conj eq_refl eq_refl))); try apply literal_multiplies. repeat split. Qed.
Example expressions_refused_ex : ~ conformable (Dot (given wide) (given shear)).
Proof. cbn. intros (_ & _ & H). discriminate. Qed.

(** ** C151: the adjoint and the transpose *)
(** For expressions without products and powers, H is the conjugate transpose, and it can be moved to the other side of an inner product. *)
Theorem adjoint_expression_partial : forall t O, sound t -> conformable t -> linear t -> evaluate t = Ok O ->
  exists h, op_adjoint O = Ok h /\ a_rows h = cols t /\ a_cols h = rows t /\
    (forall i j, (i < cols t)%nat -> (j < rows t)%nat -> a_at h i j = Cconj (meaning t j i)) /\
    forall x y w, op_matvec O y = Ok w -> inner (rows t) x w = inner (cols t) (fun i => csum (rows t) (fun j => a_at h i j * x j)) y.
Proof.
  intros t O Hm Hc Hl E. destruct (adjoint_linear t O Hm Hc Hl E) as (h & Eh & R & K & H). exists h. refine (conj Eh (conj R (conj K (conj H _)))).
  destruct (evaluate_acts t Hm Hc) as (O' & E' & Ha). rewrite E in E'. injection E' as <-. exact (adjoint_inner_product O _ _ _ h Ha Eh H).
Qed.
Print Assumptions adjoint_expression_partial.
(** The adjoint of a product of square matrices is the product of the elements. *)
Theorem adjoint_product_refuted : (forall A B n a b, multiplies_as A a -> multiplies_as B b -> mrows A = n -> mcols A = n -> mrows B = n -> mcols B = n ->
    exists O h, op_dot (Leaf A) (Leaf B) = Ok O /\ op_adjoint O = Ok h /\ forall i j, (i < n)%nat -> (j < n)%nat -> a_at h i j = Cconj (a j i) * Cconj (b j i)) /\
  exists t O h, sound t /\ conformable t /\ evaluate t = Ok O /\ op_adjoint O = Ok h /\ a_at h 1 0 <> Cconj (meaning t 0%nat 1%nat).
Proof.
  assert (forall A B n a b, multiplies_as A a -> multiplies_as B b -> mrows A = n -> mcols A = n -> mrows B = n -> mcols B = n ->
    exists O h, op_dot (Leaf A) (Leaf B) = Ok O /\ op_adjoint O = Ok h /\ forall i j, (i < n)%nat -> (j < n)%nat -> a_at h i j = Cconj (a j i) * Cconj (b j i)) as G.
  { intros A B n a b HA HB R K R' K'. exists (Product (Leaf A) (Leaf B)).
    assert (adjoint_is (Leaf A) n n a) as IA by (pose proof (adjoint_linear (Given A a) (Leaf A) HA I I eq_refl) as H; cbn in H; rewrite R, K in H; exact H).
    assert (adjoint_is (Leaf B) n n b) as IB by (pose proof (adjoint_linear (Given B b) (Leaf B) HB I I eq_refl) as H; cbn in H; rewrite R', K' in H; exact H).
    destruct (adjoint_product_elements _ _ _ _ _ IA IB) as (h & Eh & _ & _ & H). exists h. unfold op_dot. cbn [op_shape fst snd]. rewrite K, R', Nat.eqb_refl. refine (conj eq_refl (conj Eh H)). }
  split; [exact G|]. destruct (G shear shear 2%nat _ _ (literal_multiplies 2 2 _) (literal_multiplies 2 2 _) eq_refl eq_refl eq_refl eq_refl) as (O & h & EO & Eh & H).
  exists (Dot (given shear) (given shear)), O, h. refine (conj (conj (literal_multiplies 2 2 _) (literal_multiplies 2 2 _)) (conj (conj I (conj I eq_refl)) (conj EO (conj Eh _)))).
  rewrite (H 1%nat 0%nat) by lia. cbn. unfold product, csum. cbn. intros E. injection E. intros. lra.
Qed.
Print Assumptions adjoint_product_refuted.
(** The product with H as a method, rmatvec, and that with T fail for all matrices. *)
Theorem rmatvec_refuted : forall O, made_of_matrices O -> forall x, op_rmatvec O x = Err AttributeError /\ op_transposed O x = Err AttributeError.
Proof. intros O H x. split; [exact (rmatvec_fails O H x)|]. unfold op_transposed. rewrite (rmatvec_fails O H). reflexivity. Qed.
Print Assumptions rmatvec_refuted.

Example adjoint_ex : let t := Plus (given wide) (Multiple (RtoC 2) (Minus (given wide) (Multiple Ci (given wide)))) in sound t /\ conformable t /\ linear t.
Proof. cbn. refine (conj (conj _ (conj _ _)) (conj _ _)); try apply literal_multiplies; repeat split. Qed.
Example rmatvec_ex : made_of_matrices (Product (Leaf shear) (Leaf wide)).
Proof. cbn. split; eexists; reflexivity. Qed.
