(** The power balance of the fields that a Solution reports, and of the solution in lossy magnetic and chiral media. *)
From Coq Require Import Reals Lra List Arith.
Require Import Verif.Base Verif.Cplx Verif.CSum Verif.Field Verif.Fourier_Model Verif.Fourier_Spec Verif.Vec_Model Verif.Vec_Spec Verif.Vec_Proofs.
Require Import Verif.Solver_Model Verif.Solver_Spec Verif.Solver_Proofs Verif.Solver_Convergence Verif.Choice_Model Verif.Derived_Model Verif.Derived_Spec Verif.Magnetic_Spec.
Require Import Verif.Maxwell_Spec Verif.Maxwell_Proofs Verif.Power_Spec.
Local Open Scope R_scope.
Local Open Scope C_scope.

Lemma balance u g k0 E B H D J : solvable true g k0 -> faraday u g k0 E B -> ampere u g k0 H D J -> delivered (rshape g) E J = absorbed u (rshape g) k0 E D H B.
Proof.
  intros G F A. pose proof (curl_self_adjoint g E H (proj1 G) (dims g k0 G)) as S.
  rewrite (vagree_vip 3 _ E _ E _ (fun _ _ _ _ => eq_refl) A), (vagree_vip 3 _ _ H _ H F (fun _ _ _ _ => eq_refl)) in S.
  rewrite vip_minus_r, vip_scal_r, <- (vip_conj 3 _ H), vip_scal_r, Cconj_mult in S. unfold delivered, absorbed.
  pose proof (f_equal fst S) as S'. destruct (vip 3 (rshape g) E J) as [a b], (vip 3 (rshape g) E D) as [c d], (vip 3 (rshape g) H B) as [e f]. cbn in S'. cbn [fst snd]. lra.
Qed.
Lemma absorbed_normal u g k0 epsilon xi zeta mu E H : physical u ->
  absorbed u (rshape g) k0 E (constitutive_D u epsilon xi E H) H (constitutive_B u zeta mu E H) =
  (k0 * c_light u * epsilon_0 u * (snd (vip 3 (rshape g) E (fun c p => tapply epsilon E c p + tapply xi (scaled_H u H) c p)%C)
    + snd (vip 3 (rshape g) (scaled_H u H) (fun c p => tapply zeta E c p + tapply mu (scaled_H u H) c p)%C)))%R.
Proof.
  intros U. destruct U as (Hc & Hm & He & HU). assert (RtoC (c_light u) <> 0) as Hc' by (apply RtoC_neq; lra). unfold absorbed.
  assert (HU' : RtoC (c_light u) * RtoC (c_light u) * RtoC (mu_0 u) * RtoC (epsilon_0 u) = 1) by (rewrite <- !RtoC_mult, HU; reflexivity).
  assert (HZ : (/ c_light u = epsilon_0 u * impedance u)%R) by (unfold impedance; apply Rmult_eq_reg_l with (c_light u); [|lra]; rewrite Rinv_r by lra; lra).
  assert (HZ' : / RtoC (c_light u) = RtoC (epsilon_0 u) * RtoC (impedance u)) by (rewrite <- RtoC_mult, <- HZ, RtoC_inv by lra; reflexivity).
  rewrite (vagree_vip 3 (rshape g) E (constitutive_D u epsilon xi E H) E (fun c p => RtoC (epsilon_0 u) * (tapply epsilon E c p + tapply xi (scaled_H u H) c p)) (fun _ _ _ _ => eq_refl)).
  2:{ intros c p _ _. unfold constitutive_D, scaled_H, Cdiv. rewrite tscal, HZ'. ring. }
  rewrite (vagree_vip 3 (rshape g) H (constitutive_B u zeta mu E H) H (fun c p => RtoC (epsilon_0 u) * (RtoC (impedance u) * (tapply zeta E c p + tapply mu (scaled_H u H) c p))) (fun _ _ _ _ => eq_refl)).
  2:{ intros c p _ _. unfold constitutive_B, scaled_H, Cdiv. rewrite tscal, HZ'.
      assert (Y : RtoC (mu_0 u) = RtoC (epsilon_0 u) * RtoC (impedance u) * RtoC (impedance u)) by (rewrite <- HZ'; unfold impedance; rewrite RtoC_mult; field; exact Hc').
      rewrite Y. ring. }
  rewrite !vip_scal_r.
  assert (X : forall G, vip 3 (rshape g) (scaled_H u H) G = RtoC (impedance u) * vip 3 (rshape g) H G).
  { intros G. rewrite <- (vip_conj 3 _ G). unfold scaled_H. rewrite vip_scal_r, Cconj_mult, Cconj_R, vip_conj. reflexivity. }
  rewrite X. generalize (vip 3 (rshape g) H (fun c p => tapply zeta E c p + tapply mu (scaled_H u H) c p)). generalize (vip 3 (rshape g) E (fun c p => tapply epsilon E c p + tapply xi (scaled_H u H) c p)).
  intros [a b] [c d]. cbn. ring.
Qed.
Lemma absorbed_least u g k0 epsilon xi zeta mu loss E H : physical u -> (0 < k0)%R -> absorbs_both (rshape g) epsilon xi zeta mu loss ->
  (k0 * c_light u * loss * (epsilon_0 u * vnorm2 3 (rshape g) E + mu_0 u * vnorm2 3 (rshape g) H) <=
   absorbed u (rshape g) k0 E (constitutive_D u epsilon xi E H) H (constitutive_B u zeta mu E H))%R.
Proof.
  intros U K A. rewrite absorbed_normal by exact U. pose proof (absorbed_both (rshape g) epsilon xi zeta mu loss E (scaled_H u H) A) as X. unfold scaled_H at 1 in X. rewrite vnorm2_scal, Cmod_R in X.
  pose proof (Z_pos u U) as ZP. rewrite Rabs_pos_eq in X by lra. destruct U as (Hc & Hm & He & HU).
  assert (Y : (epsilon_0 u * (impedance u * impedance u) = mu_0 u)%R). { unfold impedance. transitivity (mu_0 u * (c_light u * c_light u * mu_0 u * epsilon_0 u))%R; [ring|rewrite HU; ring]. }
  set (b := (snd _ + snd _)%R) in *. assert (P : (0 < k0 * c_light u * epsilon_0 u)%R) by (repeat apply Rmult_lt_0_compat; assumption).
  apply (Rmult_le_compat_l _ _ _ (Rlt_le _ _ P)) in X. eapply Rle_trans; [|exact X]. apply Req_le. rewrite <- Y. ring.
Qed.
