(** C25. The Fourier transform pair of the back-ends, on grids of any dimension and shape. *)
From Coq Require Import Reals List Arith.
From Verif Require Import Cplx CSum Field Fourier_Model Fourier_Spec Fourier_Proofs.
Import ListNotations.
Local Open Scope R_scope.
Local Open Scope C_scope.

Theorem ift_of_ft : forall (s : list nat) (f : sfield), agree s (ift s (ft s f)) f.
Proof. exact ift_ft. Qed.
Print Assumptions ift_of_ft.
Theorem ft_of_ift : forall (s : list nat) (f : sfield), agree s (ft s (ift s f)) f.
Proof. exact ft_ift. Qed.
Print Assumptions ft_of_ift.
Theorem ft_linear : forall (s : list nat) (a b : C) (f g : sfield) (k : list nat),
  ft s (fun p => a * f p + b * g p) k = a * ft s f k + b * ft s g k.
Proof. intros. rewrite ft_plus, !ft_scal. reflexivity. Qed.
Print Assumptions ft_linear.
Theorem ift_linear : forall (s : list nat) (a b : C) (f g : sfield) (k : list nat),
  ift s (fun p => a * f p + b * g p) k = a * ift s f k + b * ift s g k.
Proof. intros. rewrite ift_plus, !ift_scal. reflexivity. Qed.
Print Assumptions ift_linear.
Theorem ft_parseval : forall (s : list nat) (f : sfield), Forall (fun n => (0 < n)%nat) s ->
  norm2 s (ft s f) = (INR (fold_right Nat.mul 1%nat s) * norm2 s f)%R.
Proof. exact ft_norm2. Qed.
Print Assumptions ft_parseval.
Theorem ft_inner_product : forall (s : list nat) (f g : sfield), Forall (fun n => (0 < n)%nat) s ->
  ip s (ft s f) (ft s g) = RtoC (INR (fold_right Nat.mul 1%nat s)) * ip s f g.
Proof. exact ft_ip. Qed.
Print Assumptions ft_inner_product.
(** Filtering in Fourier space is a convolution on the periodic grid. *)
Theorem filter_is_circular_convolution : forall (s : list nat) (h : sfield) (F : vfield) (c : nat) (p : list nat), inside s p ->
  convolve s (fun F c k => h k * F c k) F c p = sum_over s (fun q => ift s h (wrap_sub s p q) * F c q).
Proof. intros s h F c p Hp. exact (filter_convolution s h (F c) p Hp). Qed.
Print Assumptions filter_is_circular_convolution.

(** A 2 x 3 grid with six points, and the transform of a field that is not symmetric. *)
Example ft_ex : Forall (fun n => (0 < n)%nat) [2; 3]%nat /\ inside [2; 3]%nat [1; 2]%nat /\
  ft [2]%nat (fun p => RtoC (INR (nth 0 p 0%nat))) [1]%nat = RtoC (-1) /\ ft [2]%nat (fun p => RtoC (INR (nth 0 p 0%nat))) [0]%nat = 1.
Proof.
  split; [repeat constructor|]. split; [repeat constructor|]. unfold ft, sum_over, csum, phase. cbn [nth INR]. split.
  - replace (- (2 * PI * (1 * 1) / (1 + 1) + 0))%R with (- PI)%R by field.
    replace (cis (- PI)) with (RtoC (-1)) by (symmetry; apply C_eq; unfold cis; cbn [fst snd RtoC]; rewrite ?cos_neg, ?sin_neg, ?cos_PI, ?sin_PI; ring).
    generalize (cis (- (2 * PI * (0 * 1) / (1 + 1) + 0))). intros z. apply C_eq; cbn; ring.
  - replace (- (2 * PI * (1 * 0) / (1 + 1) + 0))%R with 0%R by field. rewrite cis_0.
    generalize (cis (- (2 * PI * (0 * 0) / (1 + 1) + 0))). intros z. apply C_eq; cbn; ring.
Qed.
