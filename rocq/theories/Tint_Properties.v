(** The same change of the refractive index everywhere: C199. *)
From Coq Require Import Reals List Arith Bool ZArith Lia Lra.
Require Import Verif.Base Verif.CSum Verif.Field Verif.Fourier_Model Verif.Fourier_Spec Verif.Vec_Model Verif.Robust_Spec Verif.Robust_Proofs.
Require Import Verif.Beam_Model Verif.Beam_Spec Verif.Beam_Proofs Verif.Beam_Properties Verif.Nearby_Spec Verif.Nearby_Proofs Verif.Neglect_Spec Verif.Neglect_Proofs Verif.Neglect_Properties Verif.Detour_Spec Verif.Detour_Proofs Verif.Tint_Spec Verif.Tint_Proofs Verif.Cplx.
Import ListNotations.
Local Open Scope R_scope.
Local Open Scope C_scope.

(** When the refractive index of each slice is changed by a number, which does not make it less absorbing, then the spectrum behind the slices is multiplied by the phase and the attenuation of the optical path that is added; apart from what is neglected (C194) in either calculation. *)
Theorem uniform_tint : forall (b : setup) (k : R) (F : vfield) (l : tints) (s s' : section),
  section_grid (bgrid b) (baxis b) -> (0 < k)%R -> bk b = RtoC k -> bcomp b = 1%nat \/ bcomp b = 3%nat -> bn b <> 0 -> Forall (fun y => passive_slice b (fst y) /\ (0 <= snd (snd y / bn b)%C)%R) l ->
  (gap b (read_ft b (run b s (SetFt F :: there (tinted b l)))) (fun c q => tint k (bn b) l * read_ft b (run b s' (SetFt F :: there (plain l))) c q)%C <=
   (all_neglected b k (tinted b l) + all_neglected b k (plain l) + 2 * (k * / 100000000)) * size (bcomp b) (bshape b) F
   + INR (slices (there (tinted b l)) + slices (there (plain l))) * (sqrt (INR (bcomp b * points (bshape b))) / 100000000))%R.
Proof.
  intros b k F l s s' G K BK Comp Bn A. eapply Rle_trans; [exact (beam_tinted b k G K BK Comp Bn F l s s' A)|]. unfold slack. rewrite plus_INR. lra.
Qed.
Print Assumptions uniform_tint.
(** The same for a field that is assigned and read. *)
Theorem uniform_tint_field : forall (b : setup) (k : R) (f : vfield) (l : tints) (s s' : section),
  section_grid (bgrid b) (baxis b) -> (0 < k)%R -> bk b = RtoC k -> bcomp b = 1%nat \/ bcomp b = 3%nat -> bn b <> 0 -> Forall (fun y => passive_slice b (fst y) /\ (0 <= snd (snd y / bn b)%C)%R) l ->
  (gap b (read_field b (run b s (SetField f :: there (tinted b l)))) (fun c p => tint k (bn b) l * read_field b (run b s' (SetField f :: there (plain l))) c p)%C <=
   (all_neglected b k (tinted b l) + all_neglected b k (plain l) + 2 * (k * / 100000000)) * size (bcomp b) (bshape b) f
   + INR (slices (there (tinted b l)) + slices (there (plain l)) + 2) * (sqrt (INR (bcomp b)) / 100000000))%R.
Proof. intros b k f l s s' G K BK Comp Bn A. exact (field_tinted b k G K BK Comp Bn f l s s' A). Qed.
Print Assumptions uniform_tint_field.
(** So absorption that is added uniformly attenuates the field exponentially with the thickness (Lambert and Beer), whatever the structure of the media; a real change leaves its norm as it was. *)
Theorem lambert_beer : forall (b : setup) (k : R) (f : vfield) (l : tints) (s s' : section),
  section_grid (bgrid b) (baxis b) -> (0 < k)%R -> bk b = RtoC k -> bcomp b = 1%nat \/ bcomp b = 3%nat -> bn b <> 0 -> Forall (fun y => passive_slice b (fst y) /\ (0 <= snd (snd y / bn b)%C)%R) l ->
  (Rabs (size (bcomp b) (bshape b) (read_field b (run b s (SetField f :: there (tinted b l))))
         - exp (- (k * snd (added_path l / bn b)%C)) * size (bcomp b) (bshape b) (read_field b (run b s' (SetField f :: there (plain l))))) <=
   (all_neglected b k (tinted b l) + all_neglected b k (plain l) + 2 * (k * / 100000000)) * size (bcomp b) (bshape b) f
   + INR (slices (there (tinted b l)) + slices (there (plain l)) + 2) * (sqrt (INR (bcomp b)) / 100000000))%R.
Proof.
  intros b k f l s s' G K BK Comp Bn A. eapply Rle_trans; [|exact (field_tinted b k G K BK Comp Bn f l s s' A)]. pose proof (size_gap b (read_field b (run b s (SetField f :: there (tinted b l)))) (read_field b (run b s' (SetField f :: there (plain l)))) (tint k (bn b) l)) as S. rewrite tint_mod in S. exact S.
Qed.
Print Assumptions lambert_beer.

(** ** Concrete cases *)
(** Any number of gratings, all with an extinction coefficient that is 1/10 larger. *)
Example tinted_gratings : forall n, let l := map (fun x => (x, Ci * RtoC (/ 10))) (gratings n) in
  Forall (fun y => passive_slice sheet (fst y) /\ (0 <= snd (snd y / bn sheet)%C)%R) l /\ plain l = gratings n /\ damping 1 (bn sheet) l = exp (- (INR n * (2 * PI / 10))).
Proof.
  intros n l. split; [|split].
  - apply Forall_forall. intros y Hy. apply in_map_iff in Hy as (x & <- & Hx). split; [exact (proj1 (Forall_forall _ _) (proj1 (neglect_gratings n)) x Hx)|]. cbn. lra.
  - unfold l, plain. rewrite map_map. apply map_id.
  - unfold damping. f_equal. f_equal. rewrite Rmult_1_l. assert (added_path l = RtoC (INR n * (2 * PI)) * (Ci * RtoC (/ 10))) as ->.
    { unfold l, gratings, added_path. induction n as [|n IH]; [cbn [repeat map fold_right INR]; rewrite Rmult_0_l; ring|]. cbn [repeat map fold_right]. rewrite IH, S_INR. cbn [fst snd]. rewrite !RtoC_mult, RtoC_plus. ring. }
    cbn. field.
Qed.
