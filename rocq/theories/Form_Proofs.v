(** The forms in which materials can be given. *)
From Coq Require Import Reals Lra Lia List Arith Bool.
From Coquelicot Require Import Coquelicot.
Require Import Verif.Base Verif.CSum Verif.Field Verif.Fourier_Model Verif.Fourier_Spec Verif.Fourier_Proofs Verif.Vec_Model Verif.Vec_Spec Verif.Vec_Proofs.
Require Import Verif.Solver_Model Verif.Solver_Spec Verif.Solver_Proofs Verif.Solver_Convergence Verif.Choice_Model Verif.Derived_Model Verif.Derived_Spec Verif.Magnetic_Spec Verif.Magnetic_Proofs.
Require Import Verif.Symmetry_Spec Verif.Symmetry_Results Verif.Maxwell_Spec Verif.Maxwell_Proofs Verif.Derived_Tensor Verif.Form_Spec Verif.Cplx.
Import ListNotations.
Local Open Scope R_scope.
Local Open Scope C_scope.

(** The iteration finds the solution of Maxwell's equations. *)
Lemma dissipative_computes eps u g k0 epsilon xi zeta mu settled thick J loss E : physical u -> dissipative_problem eps g k0 epsilon xi zeta mu loss -> taken_as_magnetic eps g k0 xi zeta mu settled ->
  computes 3 (rshape g) k0 (construct eps g k0 true epsilon xi zeta mu settled thick (driving u k0 J)) E <-> exists H, maxwell u g k0 epsilon xi zeta mu E H J.
Proof.
  intros U (He & He1 & Hs & Hk & (nu & Hnu & kappa & Hc) & Hl & Hd) (Hm & Hp).
  pose proof (fun F => mp_converges eps u g k0 epsilon xi zeta mu nu settled thick J kappa loss He He1 U Hs Hk Hnu Hm Hp Hc Hd (Rlt_le _ _ Hl) F Hl) as X. cbv zeta in X.
  set (o := construct eps g k0 true epsilon xi zeta mu settled thick (driving u k0 J)) in *. split.
  - intros C. destruct (X (fun _ _ => 0)) as (E' & H & q & Hq & M & _ & B).
    exists H. apply (maxwell_vagree u g k0 epsilon xi zeta mu E'); [apply Hs; reflexivity| |exact M].
    set (n0 := vnorm2 3 (rshape g) (fun c p => electric_field k0 (fun _ _ => 0) c p - E' c p)%C) in *.
    assert (V : vnorm2 3 (rshape g) (fun c p => E' c p - E c p)%C = 0%R).
    { set (Y := fun i => electric_field k0 (Nat.iter i (next_field o) (fun _ _ => 0))).
      assert (T : forall i, (vnorm2 3 (rshape g) (fun c p => E' c p - E c p)%C <= 2 * (q ^ i * n0) + 2 * vnorm2 3 (rshape g) (fun c p => Y i c p - E c p)%C)%R).
      { intros i. rewrite (vagree_vnorm2 3 (rshape g) (fun c p => E' c p - E c p)%C (fun c p => (E' c p - Y i c p) + (Y i c p - E c p))) by (intros c p _ _; ring). eapply Rle_trans; [apply vnorm2_sum_le|]. apply Rplus_le_compat_r, Rmult_le_compat_l; [lra|].
        eapply Rle_trans; [|exact (B i)]. apply Req_le. rewrite (vagree_vnorm2 3 (rshape g) (fun c p => E' c p - Y i c p)%C (fun c p => (- (1)) * (Y i c p - E' c p))) by (intros c p _ _; ring). rewrite vnorm2_scal, Cmod_opp, Cmod_1. unfold Y. ring. }
      apply Rle_antisym; [|apply vnorm2_nonneg].
      assert (Lim : is_lim_seq (fun i => (2 * (q ^ i * n0) + 2 * vnorm2 3 (rshape g) (fun c p => Y i c p - E c p)%C)%R) (2 * (0 * n0) + 2 * 0)%R).
      { apply is_lim_seq_plus'; apply is_lim_seq_mult'; try apply is_lim_seq_const; [apply is_lim_seq_mult'; [apply is_lim_seq_geom; rewrite Rabs_pos_eq; lra|apply is_lim_seq_const]|exact (C (fun _ _ => 0))]. }
      replace (2 * (0 * n0) + 2 * 0)%R with 0%R in Lim by ring. exact (is_lim_seq_le (fun _ => vnorm2 3 (rshape g) (fun c p => E' c p - E c p)%C) _ (Finite _) (Finite 0%R) T (is_lim_seq_const _) Lim). }
    intros c p Hc' Hp'. pose proof (vnorm2_zero 3 (rshape g) _ V c p Hc' Hp') as Z. cbv beta in Z. transitivity (E' c p - E c p + E c p); [ring|rewrite Z; ring].
  - intros (H & M) F. destruct (X F) as (E' & H' & q & Hq & M' & Un & B).
    apply (is_lim_seq_le_le (fun _ => 0%R) _ (fun i => (q ^ i * vnorm2 3 (rshape g) (fun c p => electric_field k0 F c p - E' c p)%C)%R)).
    + intros i. split; [apply vnorm2_nonneg|]. eapply Rle_trans; [|exact (B i)]. apply Req_le. apply vagree_vnorm2. intros c p Hc' Hp'. rewrite (Un E H M c p Hc' Hp'). reflexivity.
    + apply is_lim_seq_const.
    + replace (Finite 0%R) with (Finite (0 * vnorm2 3 (rshape g) (fun c p => electric_field k0 F c p - E' c p)%C)%R) by (f_equal; ring). apply is_lim_seq_mult'; [apply is_lim_seq_geom; rewrite Rabs_pos_eq; lra|apply is_lim_seq_const].
Qed.
Lemma maxwell_acts u g k0 e x z m e' x' z' m' E H J : acts_like (rshape g) e e' -> acts_like (rshape g) x x' -> acts_like (rshape g) z z' -> acts_like (rshape g) m m' ->
  maxwell u g k0 e x z m E H J -> maxwell u g k0 e' x' z' m' E H J.
Proof.
  intros Ae Ax Az Am [F A]. split; intros c p Hc Hp.
  - rewrite (F c p Hc Hp). unfold constitutive_B. rewrite (Az E c p Hc Hp), (Am H c p Hc Hp). reflexivity.
  - rewrite (A c p Hc Hp). unfold constitutive_D. rewrite (Ae E c p Hc Hp), (Ax H c p Hc Hp). reflexivity.
Qed.
Lemma acts_sym s t t' : acts_like s t t' -> acts_like s t' t.
Proof. intros A F c p Hc Hp. symmetry. exact (A F c p Hc Hp). Qed.
Lemma acts_trans s t t' t'' : acts_like s t t' -> acts_like s t' t'' -> acts_like s t t''.
Proof. intros A B F c p Hc Hp. rewrite (A F c p Hc Hp). exact (B F c p Hc Hp). Qed.
Lemma acts_point s t t' V i p : acts_like s t t' -> (i < 3)%nat -> inside s p -> tapply t (fun j _ => V j) i p = tapply t' (fun j _ => V j) i p.
Proof. intros A Hi Hp. exact (A _ i p Hi Hp). Qed.
Lemma inverse_acts s m m' nu : acts_like s m m' -> inverse_of s m nu -> inverse_of s m' nu.
Proof.
  intros A N F. destruct (N F) as [N1 N2]. split; intros c p Hc Hp.
  - rewrite <- (A _ c p Hc Hp). exact (N1 c p Hc Hp).
  - rewrite <- (N2 c p Hc Hp). apply (tapply_ext3 _ nu _ _ (fun c p Hc Hp => eq_sym (A F c p Hc Hp)) c p Hc Hp).
Qed.
Lemma dissipative_acts eps g k0 e x z m e' x' z' m' loss : acts_like (rshape g) e e' -> acts_like (rshape g) x x' -> acts_like (rshape g) z z' -> acts_like (rshape g) m m' ->
  dissipative_problem eps g k0 e x z m loss -> dissipative_problem eps g k0 e' x' z' m' loss.
Proof.
  intros Ae Ax Az Am (He & He1 & Hs & Hk & (nu & Hnu & kappa & Hc) & Hl & Hd). refine (conj He (conj He1 (conj Hs (conj Hk (conj _ (conj Hl _)))))).
  - exists nu. split; [exact (inverse_acts _ _ _ _ Am Hnu)|]. exists kappa. intros G c p Hc' Hp. rewrite <- (Hc G c p Hc' Hp). unfold coupling.
    rewrite <- (Ax _ c p Hc' Hp), (tapply_ext3 _ nu _ _ (Az G) c p Hc' Hp). reflexivity.
  - intros p E H Hp. cbv zeta. pose proof (Hd p E H Hp) as Q. cbv zeta in Q. eapply Rle_trans; [exact Q|]. apply Req_le. f_equal. apply csum_ext. intros i Hi.
    rewrite (acts_point _ _ _ E i p Ae Hi Hp), (acts_point _ _ _ H i p Ax Hi Hp), (acts_point _ _ _ E i p Az Hi Hp), (acts_point _ _ _ H i p Am Hi Hp). reflexivity.
Qed.
Lemma forms_proof eps u g k0 e x z m e' x' z' m' settled settled' thick thick' loss J E : physical u -> dissipative_problem eps g k0 e x z m loss ->
  taken_as_magnetic eps g k0 x z m settled -> taken_as_magnetic eps g k0 x' z' m' settled' ->
  acts_like (rshape g) e e' -> acts_like (rshape g) x x' -> acts_like (rshape g) z z' -> acts_like (rshape g) m m' ->
  computes 3 (rshape g) k0 (construct eps g k0 true e x z m settled thick (driving u k0 J)) E <->
  computes 3 (rshape g) k0 (construct eps g k0 true e' x' z' m' settled' thick' (driving u k0 J)) E.
Proof.
  intros U P T T' Ae Ax Az Am. rewrite (dissipative_computes eps u g k0 e x z m settled thick J loss E U P T).
  rewrite (dissipative_computes eps u g k0 e' x' z' m' settled' thick' J loss E U (dissipative_acts _ _ _ _ _ _ _ _ _ _ _ _ Ae Ax Az Am P) T').
  split; intros (H & M); exists H; revert M; apply maxwell_acts; auto using acts_sym.
Qed.

(** A permeability that is one real number. *)
Lemma wave_maxwell u g k0 e m E J : physical u -> solvable true g k0 -> (0 < m)%R ->
  wave_equation true g k0 (/ m) e E (driving u k0 J) <-> exists H, maxwell u g k0 e tzero tzero (tuniform (RtoC m)) E H J.
Proof.
  intros U Hs Hm. assert (Hn : (rndim g <= 3)%nat) by (apply Hs; reflexivity). destruct Hs as (Hg & Hk & _). pose proof U as (Hc & Hm0 & He & HU).
  assert (Hi : Ci <> 0) by (intros X; apply (f_equal snd) in X; cbn in X; lra).
  assert (N1 : RtoC (c_light u) <> 0) by (apply RtoC_neq; lra). assert (N2 : RtoC (mu_0 u) <> 0) by (apply RtoC_neq; lra). assert (N3 : RtoC k0 <> 0) by (apply RtoC_neq; exact Hk). assert (N4 : RtoC m <> 0) by (apply RtoC_neq; lra).
  assert (Z0 : forall F c p, tapply tzero F c p = 0) by (intros F c p; unfold tzero; cbn [tapply]; ring).
  assert (EU : RtoC (epsilon_0 u) = / (RtoC (c_light u) * RtoC (c_light u) * RtoC (mu_0 u))).
  { assert (epsilon_0 u = / (c_light u * c_light u * mu_0 u))%R as -> by (apply Rmult_eq_reg_l with (c_light u * c_light u * mu_0 u)%R; [rewrite HU; field; split; lra|nra]). rewrite RtoC_inv, !RtoC_mult by nra. reflexivity. }
  set (w := Ci * RtoC k0 * RtoC (c_light u) * RtoC (mu_0 u) * RtoC m).
  assert (Hw : w <> 0) by (unfold w; repeat apply Cmult_neq_0; assumption).
  assert (CC : forall H, vagree 3 (rshape g) H (fun c p => / w * curl g 3 E c p) -> vagree 3 (rshape g) (curl g 3 H) (fun c p => / w * curl_curl_op true g E c p)).
  { intros H V c p Hc' Hp. rewrite (curl_vagree g _ _ Hn V c p Hc' Hp), (curl_scal g _ (/ w) Hn c p Hc' Hp). reflexivity. }
  split.
  - intros W. set (H := fun c p => / w * curl g 3 E c p). exists H. split; intros c p Hc' Hp.
    + unfold constitutive_B. rewrite Z0. cbn [tapply tuniform]. unfold H, w. rewrite RtoC_mult. field. repeat split; assumption.
    + rewrite (CC H (fun c p _ _ => eq_refl) c p Hc' Hp). unfold constitutive_D. rewrite Z0, EU. specialize (W c p Hc' Hp). cbv beta in W. unfold driving in W.
      assert (Q : J c p = (RtoC (/ m) * curl_curl_op true g E c p - RtoC (k0 * k0) * tapply e E c p) / (Ci * RtoC (k0 * c_light u) * RtoC (mu_0 u))) by (rewrite W, RtoC_mult; field; repeat split; assumption).
      rewrite Q. unfold w. rewrite RtoC_inv, !RtoC_mult by lra.
      transitivity (curl_curl_op true g E c p / (Ci * RtoC k0 * RtoC (c_light u) * RtoC (mu_0 u) * RtoC m) - RtoC k0 * tapply e E c p / (Ci * RtoC (c_light u) * RtoC (mu_0 u)) - (Ci * Ci) * (RtoC k0 * tapply e E c p / (Ci * RtoC (c_light u) * RtoC (mu_0 u))));
        [rewrite Ci_sq; field; repeat split; assumption|field; repeat split; assumption].
  - intros (H & F & A) c p Hc' Hp. cbv beta.
    assert (V : vagree 3 (rshape g) H (fun c p => / w * curl g 3 E c p)).
    { intros d q Hd Hq. rewrite (F d q Hd Hq). unfold constitutive_B. rewrite Z0. cbn [tapply tuniform]. unfold w. rewrite RtoC_mult. field. repeat split; assumption. }
    pose proof (CC H V c p Hc' Hp) as Q. rewrite (A c p Hc' Hp) in Q. unfold constitutive_D in Q. rewrite Z0, EU in Q.
    assert (R : curl_curl_op true g E c p = w * (J c p - Ci * RtoC (k0 * c_light u) * (/ (RtoC (c_light u) * RtoC (c_light u) * RtoC (mu_0 u)) * tapply e E c p + 0 / RtoC (c_light u)))) by (rewrite Q; field; exact Hw).
    rewrite R. unfold driving, w. rewrite RtoC_inv, !RtoC_mult by lra.
    transitivity (Ci * RtoC k0 * RtoC (c_light u) * RtoC (mu_0 u) * J c p - Ci * Ci * (RtoC k0 * RtoC k0 * tapply e E c p) - RtoC k0 * RtoC k0 * tapply e E c p); [field; repeat split; assumption|rewrite Ci_sq; ring].
Qed.
Lemma uniform_dissipative eps g k0 e m loss : lossy_problem eps g k0 true e m loss -> (0 < k0)%R -> dissipative_problem eps g k0 e tzero tzero (tuniform (RtoC m)) loss.
Proof.
  intros (He & He1 & Hm & _ & Hs & _ & Hl & Ha) Hk. refine (conj He (conj He1 (conj Hs (conj Hk (conj _ (conj Hl _)))))).
  - assert (N : RtoC m <> 0) by (apply RtoC_neq; lra). exists (tuniform (/ RtoC m)). split.
    + intros F. split; intros c p _ _; cbn [tapply tuniform]; field; exact N.
    + exists 0. intros G c p _ _. unfold coupling, tzero. cbn [tapply tuniform]. ring.
  - intros p E H Hp. cbv zeta. eapply Rle_trans; [exact (Ha p E Hp)|]. apply Req_le. unfold tzero. cbn [csum tapply tuniform].
    destruct (H 0%nat) as [a b], (H 1%nat) as [a' b'], (H 2%nat) as [a'' b'']. cbn. ring.
Qed.
Lemma branches_proof eps u g k0 e m loss e' x z mu settled settled' thick thick' J E : physical u -> (0 < k0)%R -> lossy_problem eps g k0 true e m loss -> taken_as_magnetic eps g k0 x z mu settled' ->
  acts_like (rshape g) e e' -> acts_like (rshape g) tzero x -> acts_like (rshape g) tzero z -> acts_like (rshape g) (tuniform (RtoC m)) mu ->
  computes 3 (rshape g) k0 (construct eps g k0 true e tzero tzero (tuniform (RtoC m)) settled thick (driving u k0 J)) E <->
  computes 3 (rshape g) k0 (construct eps g k0 true e' x z mu settled' thick' (driving u k0 J)) E.
Proof.
  intros U K L T Ae Ax Az Am. rewrite (lossy_wave eps g k0 true e m loss settled thick (driving u k0 J) E L).
  rewrite (dissipative_computes eps u g k0 e' x z mu settled' thick' J loss E U (dissipative_acts _ _ _ _ _ _ _ _ _ _ _ _ Ae Ax Az Am (uniform_dissipative _ _ _ _ _ _ L K)) T).
  destruct L as (_ & _ & Hm & _ & Hs & _). rewrite (wave_maxwell u g k0 e m E J U Hs Hm).
  split; intros (H & M); exists H; revert M; apply maxwell_acts; auto using acts_sym.
Qed.
