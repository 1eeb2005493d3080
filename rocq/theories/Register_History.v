(** The history of a Registration. *)
From Coq Require Import Reals List Arith Bool ZArith Lia Lra.
From Flocq Require Import Core.
Require Import Verif.Base Verif.CSum Verif.Field Verif.Fourier_Model Verif.Fourier_Spec Verif.Fourier_Proofs Verif.Vec_Model Verif.Modes_Model Verif.Modes_Proofs.
Require Import Verif.Shift_Model Verif.Shift_Spec Verif.Shift_Proofs Verif.Shift_Moves Verif.Register_Model Verif.Register_Spec Verif.Register_Proofs Verif.Register_Whole Verif.Register_Fine Verif.Register_Uses Verif.Cplx.
Import ListNotations.
Local Open Scope R_scope.
Local Open Scope C_scope.

Section History.
  Variables (s : list nat) (W : sfield) (z : C).
  Hypothesis Z : (/ 100000000 < Cmod z)%R.
  Let z0 : z <> 0.
  Proof. apply Cmod_gt_0. lra. Qed.
  Definition holds_original (x : option sfield) : Prop := match x with Some G => agree s G W | None => True end.
  Definition holds_image (t : list R) (x : option sfield) : Prop := match x with Some F => agree s F (fun q => W q * cis (angle s q t) / z) | None => True end.
  Definition sound (t : list R) (g : registration) : Prop :=
    g_shift g = t /\ g_factor g = Finite z /\ length t = length s /\ Forall2 resolved_shift s t /\ holds_original (original_hat g) /\ holds_image t (registered_hat g) /\ (original_hat g <> None \/ registered_hat g <> None).
  Lemma sound_original t g : sound t g -> exists G, original_ft s g = Ok G /\ agree s G W.
  Proof.
    intros (T & F & L & R & O & I & N). unfold original_ft. destruct (original_hat g) as [G|]; [exists G; split; [reflexivity|exact O]|]. destruct (registered_hat g) as [H|]; [|exfalso; destruct N as [N|N]; apply N; reflexivity].
    rewrite F, T. destruct (roll_ft_full s t H L R) as (G & -> & HG). cbn [rmap]. eexists. split; [reflexivity|]. intros q Hq. cbn beta. rewrite HG. rewrite (I q Hq).
    transitivity (W q * (cis (angle s q t) * cis (- angle s q t))); [field; exact z0|]. rewrite <- cis_plus, Rplus_opp_r, cis_0. ring.
  Qed.
  Lemma sound_image t g : sound t g -> exists F, image_ft s g = Ok F /\ agree s F (fun q => W q * cis (angle s q t) / z).
  Proof.
    intros (T & F & L & R & O & I & N). unfold image_ft. destruct (registered_hat g) as [H|]; [exists H; split; [reflexivity|exact I]|]. destruct (original_hat g) as [G|]; [|exfalso; destruct N as [N|N]; apply N; reflexivity].
    rewrite F, T. unfold factor_vanishes. replace (near_zero (Cmod z)) with false by (symmetry; apply near_zero_false; rewrite Rabs_pos_eq; [exact Z|apply Cmod_ge_0]). change (map Ropp t) with (back t).
    destruct (roll_ft_full s (back t) G) as (H & -> & HG); [rewrite back_length; exact L|apply resolved_back, R|]. cbn [rmap]. eexists. split; [reflexivity|]. intros q Hq. cbn [divided]. rewrite HG, angle_back, Ropp_involutive, (O q Hq). reflexivity.
  Qed.
  Lemma sound_use t g u : sound t g -> adding u -> (original_hat g <> None \/ plain u) -> length (new_shift t u) = length s -> Forall2 resolved_shift s (new_shift t u) -> sound (new_shift t u) (used s g u) /\ (original_hat g <> None -> original_hat (used s g u) <> None).
  Proof.
    intros S P Q L' R'. destruct (sound_original t g S) as (G & EG & HG). destruct (sound_image t g S) as (F & EF & HF). destruct S as (T & Fa & L & R & O & I & N).
    destruct u as [| |t'|t'|t']; cbn [used new_shift] in *; try contradiction.
    - rewrite EF. cbn [keep_image]. split; [|auto]. repeat split; auto. right. discriminate.
    - rewrite EG. cbn [keep_original]. split; [|discriminate]. repeat split; auto. left. discriminate.
    - unfold set_shift. destruct (registered_hat g) as [H|] eqn:E.
      + rewrite EG. split; [|discriminate]. repeat split; cbn; auto. left. discriminate.
      + unfold replace_shift. split; [|auto]. repeat split; cbn; auto; rewrite ?E; cbn; auto.
    - destruct Q as [Q|Q]; [|contradiction]. rewrite T. change (map (fun x => (fst x + snd x)%R) (combine t t')) with (both t t'). unfold original_ft in EG. destruct (original_hat g) as [G'|] eqn:EO; [|contradiction]. injection EG as ->.
      unfold set_shift, replace_shift, original_ft. cbn [registered_hat original_hat]. rewrite EO. destruct (registered_hat g) as [H|] eqn:E; (split; [|discriminate]); repeat split; cbn; auto; left; discriminate.
  Qed.
  Lemma sound_after l : forall t g, sound t g -> Forall adding l -> (original_hat g <> None \/ Forall plain l) -> resolved_history s t l -> sound (new_shifts t l) (after s g l).
  Proof.
    induction l as [|u l IH]; intros t g S A P H; [exact S|]. cbn [after fold_left new_shifts resolved_history] in *. destruct H as [_ H]. inversion A as [|? ? A1 A2]; subst. assert (length (new_shift t u) = length s /\ Forall2 resolved_shift s (new_shift t u)) as [L R] by (destruct l; apply H).
    destruct (sound_use t g u S A1) as [S' O]; [destruct P as [P|P]; [left; exact P|right; inversion P; assumption]|exact L|exact R|]. apply IH; [exact S'|exact A2| |exact H]. destruct P as [P|P]; [left; auto|right; inversion P; assumption].
  Qed.
  Lemma new_shifts_length l : forall t, resolved_history s t l -> length (new_shifts t l) = length s.
  Proof. induction l as [|u l IH]; intros t [[L _] H]; [exact L|]. apply IH, H. Qed.
  Lemma sound_reads t g : sound t g -> (exists h, original s g = Ok h /\ agree s h (ift s W)) /\ exists h, image s g = Ok h /\ agree s h (fun p => / z * ift s (fun q => W q * cis (angle s q t)) p).
  Proof.
    intros S. destruct (sound_original t g S) as (G & EG & HG). destruct (sound_image t g S) as (F & EF & HF). destruct S as (T & Fa & L & R & _). unfold original, image. rewrite EG, EF, T, L, right_mask_full. cbn [rmap]. split.
    - eexists. split; [reflexivity|]. intros p Hp. rewrite part_ift_true by exact Hp. apply ift_ext. exact HG.
    - eexists. split; [reflexivity|]. intros p Hp. rewrite part_ift_true by exact Hp. rewrite <- ift_scal. apply ift_ext. intros q Hq. rewrite (HF q Hq). unfold Cdiv. ring.
  Qed.
End History.

(** ** Both ways to make a Registration *)
Lemma moved_back_ift s t w : length t = length s -> agree s (ift s (fun q => ft s w q * cis (angle s q t))) (moved s (back t) w).
Proof. intros L p Hp. rewrite moved_ift by (exact Hp || (rewrite back_length; exact L)). apply ift_ext. intros q _. rewrite angle_back, Ropp_involutive. reflexivity. Qed.
Lemma history_original s t z e w l : (/ 100000000 < Cmod z)%R -> Forall adding l -> resolved_history s t l ->
  let g := after s (make s t (Finite z) e (Some w) None) l in
  g_shift g = new_shifts t l /\ g_factor g = Finite z /\
  (exists h, original s g = Ok h /\ agree s h w) /\ exists h, image s g = Ok h /\ agree s h (fun p => / z * moved s (back (new_shifts t l)) w p).
Proof.
  intros Z P H g. assert (length t = length s /\ Forall2 resolved_shift s t) as [L R] by (destruct l; apply H). assert (sound s (ft s w) z t (make s t (Finite z) e (Some w) None)) as S.
  { unfold make. repeat split; cbn; auto; [|left; discriminate]. intros q Hq. rewrite L, right_mask_full, part_ft_true by exact Hq. reflexivity. }
  pose proof (sound_after s (ft s w) z Z l t _ S P ltac:(left; discriminate) H) as A. fold g in A. destruct (sound_reads s (ft s w) z Z _ _ A) as ((h & H1 & H2) & (h' & H3 & H4)). split; [apply A|]. split; [apply A|]. split.
  - exists h. split; [exact H1|]. intros p Hp. rewrite (H2 p Hp). apply ift_ft, Hp.
  - exists h'. split; [exact H3|]. intros p Hp. rewrite (H4 p Hp). f_equal. apply moved_back_ift; [apply new_shifts_length; exact H|exact Hp].
Qed.
Lemma history_registered s t z e v l : (/ 100000000 < Cmod z)%R -> Forall plain l -> resolved_history s t l ->
  let g := after s (make s t (Finite z) e None (Some v)) l in
  g_shift g = new_shifts t l /\ g_factor g = Finite z /\
  (exists h, original s g = Ok h /\ agree s h (fun p => z * moved s t v p)) /\ exists h, image s g = Ok h /\ agree s h (moved s (back (new_shifts t l)) (moved s t v)).
Proof.
  intros Z P H g. assert (length t = length s /\ Forall2 resolved_shift s t) as [L R] by (destruct l; apply H). assert (z <> 0) as z0 by (apply Cmod_gt_0; lra). set (W := ft s (fun p => z * moved s t v p)).
  assert (sound s W z t (make s t (Finite z) e None (Some v))) as S.
  { unfold make. repeat split; cbn; auto; [|right; discriminate]. intros q Hq. rewrite L, right_mask_full, part_ft_true by exact Hq. unfold W. rewrite ft_scal, ft_moved by assumption.
    transitivity (ft s v q * (cis (- angle s q t) * cis (angle s q t))); [rewrite <- cis_plus, Rplus_opp_l, cis_0; ring|field; exact z0]. }
  pose proof (sound_after s W z Z l t _ S ltac:(eapply Forall_impl; [|exact P]; intros [] Hu; cbn in *; auto) (or_intror P) H) as A. fold g in A. destruct (sound_reads s W z Z _ _ A) as ((h & H1 & H2) & (h' & H3 & H4)). split; [apply A|]. split; [apply A|]. split.
  - exists h. split; [exact H1|]. intros p Hp. rewrite (H2 p Hp). exact (ift_ft s (fun p => z * moved s t v p) p Hp).
  - exists h'. split; [exact H3|]. intros p Hp. rewrite (H4 p Hp). unfold W. rewrite (moved_back_ift s (new_shifts t l) (fun p => z * moved s t v p) (new_shifts_length s l t H) p Hp). rewrite moved_scal. rewrite Cmult_assoc, Cinv_l by exact z0. ring.
Qed.
