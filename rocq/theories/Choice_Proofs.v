(** Proofs about the constants alpha and beta of the constructor. *)
From Coq Require Import Reals Lra Lia List Arith Bool.
Require Import Verif.Base Verif.Cplx Verif.CSum Verif.Field Verif.Fourier_Model Verif.Fourier_Spec Verif.Fourier_Proofs Verif.Display_Model.
Require Import Verif.Modes_Model Verif.Roots_Model Verif.Roots_Spec Verif.Roots_Formulas Verif.Roots_Proofs Verif.Roots_Eigen Verif.Eigen_Bound.
Require Import Verif.Vec_Model Verif.Vec_Spec Verif.Vec_Proofs Verif.Solver_Model Verif.Solver_Spec Verif.Solver_Proofs.
Require Import Verif.Solver_Convergence Verif.Solver_Limit Verif.Solver_Choice Verif.Choice_Model.
Import ListNotations.
Local Open Scope R_scope.
Local Open Scope C_scope.

Ltac cj := repeat (rewrite Cconj_plus || rewrite Cconj_minus || rewrite Cconj_mult || rewrite Cconj_conj || rewrite Cconj_R).
(** ** Values on the grid *)
Lemma any_over_spec s F : any_over s F = true <-> exists p, inside s p /\ F p = true.
Proof.
  revert F. induction s as [|n s IH]; intros F; cbn [any_over].
  - split; [intros H; exists []; split; [constructor|exact H]|]. intros (p & Hp & H). inversion Hp; subst. exact H.
  - rewrite existsb_exists. split.
    + intros (i & Hi & H). apply in_seq in Hi. apply IH in H. destruct H as (p & Hp & H). exists (i :: p). split; [constructor; [lia|exact Hp]|exact H].
    + intros (p & Hp & H). inversion Hp as [|m i s' p' Hi Hp']; subst. exists i. split; [apply in_seq; lia|]. apply IH. exists p'. split; assumption.
Qed.
Lemma any_over_false s F : any_over s F = false <-> forall p, inside s p -> F p = false.
Proof.
  split.
  - intros H p Hp. destruct (F p) eqn:E; [|reflexivity]. assert (any_over s F = true) as K by (apply any_over_spec; exists p; split; assumption). congruence.
  - intros H. destruct (any_over s F) eqn:E; [|reflexivity]. apply any_over_spec in E. destruct E as (p & Hp & E). rewrite (H p Hp) in E. discriminate.
Qed.
Lemma all_over_spec s F : all_over s F = true <-> forall p, inside s p -> F p = true.
Proof.
  unfold all_over. rewrite negb_true_iff, any_over_false. split; intros H p Hp; specialize (H p Hp); destruct (F p); cbn in *; congruence.
Qed.
Lemma fold_max_ge (l : list R) x : In x l -> (x <= fold_right Rmax 0 l)%R.
Proof. induction l as [|y l IH]; [intros []|]. intros [->|H]; cbn; [apply Rmax_l|]. eapply Rle_trans; [apply IH, H|apply Rmax_r]. Qed.
Lemma rmax_over_nonneg s F : (forall p, inside s p -> (0 <= F p)%R) -> (0 <= rmax_over s F)%R.
Proof.
  revert F. induction s as [|n s IH]; intros F H; cbn [rmax_over]; [apply Rmax_l|].
  induction n as [|n IHn]; cbn [rmax]; [lra|]. eapply Rle_trans; [apply IHn|apply Rmax_l]. intros p Hp. apply H. inversion Hp; subst. constructor; [lia|assumption].
Qed.

(** ** Eigenvalues *)
Section Eigen.
  Variable eps : R.
  Hypothesis He : (0 < eps)%R.
  Hypothesis H1 : (2 * eps <= 1)%R.
  Lemma eigenvalues_scalar f p : eigenvalues eps (TScalar f) p = [f p].
  Proof. reflexivity. Qed.
  Definition at_ (m : nat -> nat -> sfield) (p : list nat) : nat -> nat -> C := fun i j => m i j p.
  Lemma eigenvalues_matrix m p : exists exact,
    length exact = 3%nat /\ length (eigenvalues eps (TMatrix m) p) = 3%nat /\ (forall x, Roots_Spec.det3 (minus_x (at_ m p) x) = - product_of exact x) /\ Forall (eigenvalue (at_ m p)) exact /\
    Forall2 (fun x y => (Cmod (x - y)%C <= 2 * sqrt eps)%R) (eigenvalues eps (TMatrix m) p) exact.
  Proof.
    set (arr := fun l : list nat => m (nth 0 l 0%nat) (nth 1 l 0%nat) p). destruct (mat3_near eps arr He H1) as (roots & exact & E & P & Ev & Near).
    exists exact. unfold eigenvalues. fold arr. rewrite E, values_some. pose proof (mat3_length eps arr roots He H1 E) as L.
    split; [rewrite <- (forall2_length _ _ _ Near); exact L|]. split; [exact L|]. split; [exact P|]. split; [exact Ev|exact Near].
  Qed.
  Lemma matrix_form_upper m p (b : R) u : hermitian (at_ m p) -> (forall x, In x (eigenvalues eps (TMatrix m) p) -> (Cmod x <= b)%R) ->
    (rip u (ap (at_ m p) u) <= (b + 2 * sqrt eps) * rip u u)%R.
  Proof.
    intros Hm Hb. destruct (eigenvalues_matrix m p) as (exact & L & _ & P & Ev & Near).
    apply (form_bound _ exact _ u Hm P L Ev). clear P Ev L. revert Hb. induction Near as [|x y l l' N Near IH]; intros Hb; constructor; [|apply IH; intros; apply Hb; right; assumption].
    pose proof (Hb x (or_introl eq_refl)) as K. pose proof (Rle_trans _ _ _ (Rmax_l _ _) (Rmax_Cmod (x - y))) as D. apply Rabs_def2_le in D. cbn in D.
    pose proof (Rle_trans _ _ _ (Rmax_l _ _) (Rmax_Cmod x)) as D'. apply Rabs_def2_le in D'. lra.
  Qed.
  Lemma matrix_form_lower m p (b : R) u : hermitian (at_ m p) -> (forall x, In x (eigenvalues eps (TMatrix m) p) -> (b <= fst x)%R) ->
    ((b - 2 * sqrt eps) * rip u u <= rip u (ap (at_ m p) u))%R.
  Proof.
    intros Hm Hb. destruct (eigenvalues_matrix m p) as (exact & L & _ & P & Ev & Near).
    apply (form_bound_below _ exact _ u Hm P L Ev). clear P Ev L. revert Hb. induction Near as [|x y l l' N Near IH]; intros Hb; constructor; [|apply IH; intros; apply Hb; right; assumption].
    pose proof (Hb x (or_introl eq_refl)) as K. pose proof (Rle_trans _ _ _ (Rmax_l _ _) (Rmax_Cmod (x - y))) as D. apply Rabs_def2_le in D. cbn in D. lra.
  Qed.
  Lemma largest_ge s t p x : inside s p -> In x (eigenvalues eps t p) -> (Cmod x <= largest_eigenvalue eps s t)%R.
  Proof.
    intros Hp Hx. unfold largest_eigenvalue. eapply Rle_trans; [|apply (rmax_over_ge s (fun p => fold_right Rmax 0 (map Cmod (eigenvalues eps t p))) p Hp)].
    apply fold_max_ge, in_map, Hx.
  Qed.
  Lemma largest_nonneg s t : (0 <= largest_eigenvalue eps s t)%R.
  Proof. apply rmax_over_nonneg. intros p _. induction (map Cmod (eigenvalues eps t p)) as [|x l IH]; cbn; [lra|]. eapply Rle_trans; [exact IH|apply Rmax_r]. Qed.

  (** ** The deviation of the medium *)
  Definition shifted (m : nat -> nat -> C) (a : R) : nat -> nat -> C := fun i j => m i j - eye i j * RtoC a.
  Lemma delta_matrix m ar beta p : exists d, delta_tensor (TMatrix m) ar beta = TMatrix d /\ hermitian (at_ d p) /\
    forall u, rip u (ap (at_ d p) u) = rip (ap (shifted (at_ m p) (ar * beta)) u) (ap (shifted (at_ m p) (ar * beta)) u).
  Proof.
    unfold delta_tensor. cbv zeta. cbn [tscale tadjoint tadd tsub tmul]. eexists. split; [reflexivity|].
    assert (R2 : forall x : R, (Cmod (RtoC x) * Cmod (RtoC x) = x * x)%R) by (intros x; rewrite Cmod_R, <- Rabs_mult; apply Rabs_pos_eq; nra).
    rewrite R2. set (b := (ar * beta)%R). split.
    - intros i j Hi Hj. unfold at_. cbn [csum]. cj.
      assert (E : eye j i = Cconj (eye i j)). { unfold eye. rewrite Nat.eqb_sym. destruct (Nat.eqb i j); rewrite Cconj_R; reflexivity. }
      rewrite E. ring.
    - intros u. rewrite !rip_vip. apply (f_equal fst). unfold ap, shifted, at_, eye. cbn [csum Nat.eqb]. cj. rewrite RtoC_mult.
      match goal with |- @eq _ ?x ?y => change (@eq C x y) end. ring.
  Qed.
  Lemma sigma_nonneg' s t ar beta : beta <> 0%R -> (0 <= sigma_EE eps s t ar beta)%R.
  Proof. intros H. unfold sigma_EE. apply Rmult_le_pos; [apply sqrt_pos|]. left. apply Rinv_0_lt_compat, Rabs_pos_lt, H. Qed.
  (** The squared deviation is within 2 sqrt eps / beta^2 of the square of sigmaEE. *)
  Lemma sigma_EE_bounds v s t ar beta r : fits v t -> (0 < beta)%R -> (0 <= r)%R ->
    (sigma_EE eps s t ar beta * sigma_EE eps s t ar beta + 2 * sqrt eps / (beta * beta) <= r * r)%R ->
    deviates (if v then 3 else 1) s t beta ar r.
  Proof.
    intros Hf Hb Hr Hle p u Hp. pose proof (sqrt_lt_R0 eps He) as Hq.
    pose proof (largest_nonneg s (delta_tensor t ar beta)) as L0. set (L := largest_eigenvalue eps s (delta_tensor t ar beta)) in *.
    assert (Es : (sigma_EE eps s t ar beta * sigma_EE eps s t ar beta = L / (beta * beta))%R).
    { unfold sigma_EE. fold L. rewrite (Rabs_pos_eq beta) by lra. transitivity (sqrt L * sqrt L / (beta * beta))%R; [field; lra|]. rewrite sqrt_sqrt by exact L0. reflexivity. }
    rewrite Es in Hle.
    assert (Hle' : (L + 2 * sqrt eps <= beta * beta * (r * r))%R).
    { apply Rmult_le_reg_r with (/ (beta * beta))%R; [apply Rinv_0_lt_compat; nra|]. eapply Rle_trans; [|eapply Rle_trans; [exact Hle|]]; apply Req_le; field; lra. }
    destruct t as [f|m].
    - rewrite <- rsum_scal. apply rsum_le. intros i _. cbn [tapply].
      assert (K : (Cmod (f p - RtoC (ar * beta))%C * Cmod (f p - RtoC (ar * beta))%C <= L)%R).
      { rewrite <- delta_beta2_mod. apply (largest_ge s (delta_tensor (TScalar f) ar beta) p _ Hp). 
        unfold delta_tensor. cbv zeta. cbn [tscale tadjoint tadd tsub tmul]. rewrite !eigenvalues_scalar. left. unfold delta_beta2. cbv zeta. ring. }
      replace (f p * u i / RtoC beta - RtoC ar * u i) with ((f p - RtoC (ar * beta)) / RtoC beta * u i) by (rewrite RtoC_mult; field; apply RtoC_neq; lra).
      rewrite Cmod_mult, Cmod_div, Cmod_R, (Rabs_pos_eq beta) by (try apply RtoC_neq; lra).
      set (a := Cmod (f p - RtoC (ar * beta))) in *. set (w := Cmod (u i)).
      replace (a / beta * w * (a / beta * w))%R with (a * a / (beta * beta) * (w * w))%R by (field; lra). apply Rmult_le_compat_r; [nra|].
      apply Rmult_le_reg_r with (beta * beta)%R; [nra|]. replace (a * a / (beta * beta) * (beta * beta))%R with (a * a)%R by (field; lra). nra.
    - cbn in Hf. subst v. destruct (delta_matrix m ar beta p) as (d & Ed & Hd & Fd).
      assert (B : (rip u (ap (at_ d p) u) <= (L + 2 * sqrt eps) * rip u u)%R).
      { apply matrix_form_upper; [exact Hd|]. intros x Hx. unfold L. rewrite Ed. apply (largest_ge s (TMatrix d) p x Hp Hx). }
      rewrite Fd in B. cbv iota. rewrite <- (rip_mod u).
      apply Rle_trans with (/ (beta * beta) * rip (ap (shifted (at_ m p) (ar * beta)) u) (ap (shifted (at_ m p) (ar * beta)) u))%R.
      + rewrite rip_mod, <- rsum_scal. apply Req_le, rsum_ext. intros i Hi. cbn [tapply].
        assert (E : csum 3 (fun j => m i j p * u j) / RtoC beta - RtoC ar * u i = ap (shifted (at_ m p) (ar * beta)) u i / RtoC beta).
        { unfold ap, shifted, at_. rewrite RtoC_mult. cbn [csum]. unfold eye. destruct i as [|[|[|i]]]; [cbn [Nat.eqb]; field; apply RtoC_neq; lra..|lia]. }
        rewrite E, Cmod_div, Cmod_R, (Rabs_pos_eq beta) by (try apply RtoC_neq; lra). field. lra.
      + pose proof (rip_nonneg u) as U. apply Rmult_le_reg_l with (beta * beta)%R; [nra|]. rewrite <- Rmult_assoc, Rinv_r, Rmult_1_l by nra. nra.
  Qed.
End Eigen.

(** ** Gain *)
Section Gain.
  Variable eps : R.
  Hypothesis He : (0 < eps)%R.
  Hypothesis H1 : (2 * eps <= 1)%R.
  Lemma antihermitian_scalar f p : eigenvalues eps (antihermitian (TScalar f)) p = [RtoC (snd (f p))].
  Proof.
    unfold antihermitian. cbn [tsub tadjoint tscale]. rewrite eigenvalues_scalar. f_equal. destruct (f p) as [a b]. unfold Cconj, Ci. apply injective_projections; cbn; field.
  Qed.
  Lemma antihermitian_matrix m p : exists d, antihermitian (TMatrix m) = TMatrix d /\ hermitian (at_ d p) /\
    forall u, rip u (ap (at_ d p) u) = snd (csum 3 (fun i => Cconj (u i) * csum 3 (fun j => m i j p * u j))).
  Proof.
    unfold antihermitian. cbn [tsub tadjoint tscale]. eexists. split; [reflexivity|].
    assert (K : forall z : C, snd z = fst (- (Ci / RtoC 2) * (z - Cconj z))) by (intros [x y]; cbn; field).
    assert (CI : Cconj (- (Ci / RtoC 2)) = Ci / RtoC 2) by (apply injective_projections; cbn; field).
    split.
    - intros i j Hi Hj. unfold at_. rewrite Cconj_mult, CI, Cconj_minus, Cconj_conj. ring.
    - intros u. rewrite rip_vip, K. apply (f_equal fst). unfold ap, at_. cbn [csum]. cj.
      match goal with |- @eq _ ?x ?y => change (@eq C x y) end. ring.
  Qed.
  (** Media without gain are not thought to have gain. *)
  Lemma no_gain_found v s t : fits v t -> absorbs (if v then 3 else 1) s t 0 -> has_gain eps s t = false.
  Proof.
    intros Hf Ha. apply any_over_false. intros p Hp. pose proof (sqrt_lt_R0 eps He) as Hq. apply not_true_iff_false. intros F. apply existsb_exists in F. destruct F as (x & Hx & Lt).
    unfold Rltb, max_allowed_gain in Lt. destruct (Rlt_dec (fst x) (- sqrt eps)) as [Lt'|]; [|discriminate]. clear Lt.
    destruct t as [f|m].
    - rewrite antihermitian_scalar in Hx. destruct Hx as [<-|[]]. cbn [fst RtoC] in Lt'.
      pose proof (Ha p (fun i => if Nat.eqb i 0 then RtoC 1 else RtoC 0) Hp) as K. cbn [tapply] in K.
      assert (E : snd (csum (if v then 3 else 1) (fun i => Cconj (if Nat.eqb i 0 then RtoC 1 else RtoC 0) * (f p * (if Nat.eqb i 0 then RtoC 1 else RtoC 0)))) = snd (f p)).
      { destruct v; cbn [csum Nat.eqb]; destruct (f p); cbn; ring. }
      rewrite E in K. lra.
    - cbn in Hf. subst v. destruct (antihermitian_matrix m p) as (d & Ed & Hd & Fd). rewrite Ed in Hx.
      assert (Pos : forall w, eigenvalue (at_ d p) w -> (0 <= fst w)%R).
      { intros w (u & Nz & K). pose proof (Ha p u Hp) as Q. cbn [tapply] in Q. rewrite <- Fd in Q.
        destruct (sum_squares_pos u Nz) as (n & Hn & En).
        assert (En' : rip u u = n) by (rewrite rip_vip, En; reflexivity).
        assert (Ew : rip u (ap (at_ d p) u) = (fst w * n)%R).
        { rewrite <- En'. rewrite (rip_same u _ (fun i => w * u i)) by (intros i Hi; exact (K i Hi)). unfold rip.
          pose proof (hermitian_real _ w Hd (ex_intro _ u (conj Nz K))) as R0. destruct w as [w1 w2]. cbn in R0. subst w2. cbn. ring. }
        rewrite Ew in Q. nra. }
      set (arr := fun l : list nat => d (nth 0 l 0%nat) (nth 1 l 0%nat) p). destruct (mat3_near eps arr He H1) as (roots & exact & E & _).
      pose proof (eigh_nonneg eps arr roots He H1 Hd Pos E) as B. unfold eigenvalues in Hx. fold arr in Hx. rewrite E, values_some in Hx.
      rewrite Forall_forall in B. specialize (B x Hx). cbn beta in B. lra.
  Qed.
  (** Media that are not thought to have gain have little gain. *)
  Lemma gain_bounded v s t : fits v t -> has_gain eps s t = false -> absorbs (if v then 3 else 1) s t (- (3 * sqrt eps)).
  Proof.
    intros Hf H p u Hp. pose proof (sqrt_lt_R0 eps He) as Hq. unfold has_gain in H. rewrite any_over_false in H. specialize (H p Hp).
    assert (B : forall x, In x (eigenvalues eps (antihermitian t) p) -> (- sqrt eps <= fst x)%R).
    { intros x Hx. apply Rnot_lt_le. intros F. assert (existsb (fun x : C => Rltb (fst x) (- max_allowed_gain eps)) (eigenvalues eps (antihermitian t) p) = true) as K; [|congruence].
      apply existsb_exists. exists x. split; [exact Hx|]. unfold Rltb, max_allowed_gain. destruct (Rlt_dec _ _); [reflexivity|contradiction]. }
    destruct t as [f|m].
    - rewrite antihermitian_scalar in B. specialize (B _ (or_introl eq_refl)). cbn [fst RtoC] in B.
      pose proof (absorbs_scalar (if v then 3 else 1) [1%nat] (fun _ => f p) (snd (f p)) (fun _ _ => Rle_refl _) [0%nat] u ltac:(repeat constructor)) as Q. cbn [tapply] in *.
      eapply Rle_trans; [|exact Q]. apply Rmult_le_compat_r; [apply rsum_nonneg; intros i _; pose proof (Cmod_ge_0 (u i)); nra|lra].
    - cbn in Hf. subst v. destruct (antihermitian_matrix m p) as (d & Ed & Hd & Fd). rewrite Ed in B. cbn [tapply].
      pose proof (matrix_form_lower eps He H1 d p (- sqrt eps) u Hd B) as Q. rewrite Fd in Q. rewrite <- (rip_mod u). eapply Rle_trans; [|exact Q]. apply Req_le. ring.
  Qed.
End Gain.
