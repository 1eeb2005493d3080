(** Proofs about the power of beams. *)
From Coq Require Import Reals List Arith Bool ZArith Lia Lra Psatz FunctionalExtensionality.
Require Import Verif.Base Verif.CSum Verif.Field Verif.Fourier_Model Verif.Fourier_Spec Verif.Fourier_Proofs Verif.Vec_Model Verif.Vec_Spec Verif.Vec_Proofs Verif.Modes_Model Verif.Modes_Proofs.
Require Import Verif.Beam_Model Verif.Beam_Spec Verif.Beam_Proofs Verif.Beam_Media Verif.Beam_Slices Verif.Beam_More Verif.Beam_Vector Verif.Cplx.
Import ListNotations.
Local Open Scope R_scope.
Local Open Scope C_scope.

(** ** Projections do not add power *)
Lemma mod_sq (z : C) : (Cmod z * Cmod z = fst z * fst z + snd z * snd z)%R.
Proof. unfold Cmod. rewrite sqrt_sqrt by nra. ring. Qed.
Lemma projection_contracts (a b c : R) (x y z : C) : (a * a + b * b + c * c = 1)%R ->
  let u := RtoC a * x + RtoC b * y + RtoC c * z in
  (Cmod (x - RtoC a * u)%C * Cmod (x - RtoC a * u)%C + Cmod (y - RtoC b * u)%C * Cmod (y - RtoC b * u)%C + Cmod (z - RtoC c * u)%C * Cmod (z - RtoC c * u)%C <=
   Cmod x * Cmod x + Cmod y * Cmod y + Cmod z * Cmod z)%R.
Proof.
  intros N u. rewrite !mod_sq. destruct x as [x1 x2], y as [y1 y2], z as [z1 z2].
  assert (u = ((a * x1 + b * y1 + c * z1)%R, (a * x2 + b * y2 + c * z2)%R)) as E by (unfold u, RtoC, Cmult, Cplus; cbn; f_equal; ring).
  rewrite E. unfold RtoC, Cminus, Cmult, Cplus, Copp. cbn [fst snd].
  set (u1 := (a * x1 + b * y1 + c * z1)%R). set (u2 := (a * x2 + b * y2 + c * z2)%R).
  match goal with |- (?L <= ?M)%R => enough (M - L = u1 * u1 + u2 * u2)%R as D by nra end.
  transitivity ((2 - (a * a + b * b + c * c)) * (u1 * u1 + u2 * u2))%R; [unfold u1, u2; ring|rewrite N; ring].
Qed.
Lemma vnorm2_one s F : vnorm2 1 s F = norm2 s (F 0%nat).
Proof. unfold vnorm2. cbn. ring. Qed.
Lemma vnorm2_three s F : vnorm2 3 s F = rsum_over s (fun q => (Cmod (F 0%nat q) * Cmod (F 0%nat q) + Cmod (F 1%nat q) * Cmod (F 1%nat q) + Cmod (F 2%nat q) * Cmod (F 2%nat q))%R).
Proof. unfold vnorm2. rewrite rsum3, !rsum_over_plus. reflexivity. Qed.
Lemma vnorm2_ext n s F F' : (forall c q, (c < n)%nat -> inside s q -> Cmod (F c q) = Cmod (F' c q)) -> vnorm2 n s F = vnorm2 n s F'.
Proof. intros H. apply rsum_ext. intros c Hc. apply rsum_over_ext. intros q Hq. rewrite (H c q Hc Hq). reflexivity. Qed.
Lemma vnorm2_le n s F F' : (forall c, (c < n)%nat -> (norm2 s (F c) <= norm2 s (F' c))%R) -> (vnorm2 n s F <= vnorm2 n s F')%R.
Proof. intros H. apply rsum_le. exact H. Qed.
Lemma vnorm2_nonneg n s F : (0 <= vnorm2 n s F)%R.
Proof. apply rsum_nonneg. intros. apply norm2_nonneg. Qed.

Section Power.
  Variables (b : setup) (k : R).
  Hypotheses (G : section_grid (bgrid b) (baxis b)) (K : (0 < k)%R) (BK : bk b = RtoC k) (Comp : bcomp b = 1%nat \/ bcomp b = 3%nat).
  Notation g := (bgrid b).
  Notation axis := (baxis b).
  Notation fi := (bfirst b).
  Notation sh := (bshape b).
  Notation pow := (vnorm2 (bcomp b) sh).
  Definition dark (F : vfield) : Prop := forall c q, (c < bcomp b)%nat -> inside sh q -> (Cmod (F c q) <= / 100000000)%R.

  Lemma comp_lt c : (c < bcomp b)%nat -> (c < 3)%nat.
  Proof. destruct Comp; lia. Qed.
  Lemma project_power F : (pow (project b F) <= pow F)%R.
  Proof.
    destruct Comp as [C1|C3]; [rewrite (project_scalar b C1); lra|]. rewrite C3, !vnorm2_three. apply rsum_over_le. intros q _. unfold project. rewrite C3. cbn [Nat.ltb Nat.leb]. rewrite csum3.
    rewrite !(k_dir_real b k K BK G) by lia. apply projection_contracts.
    pose proof (wave_vector_norm b k G q) as N. pose proof (wnorm_pos b k K q) as W. rewrite rsum3 in N.
    assert (wnorm b k q * wnorm b k q = Rmax (k * k) (kt2 g axis q))%R as S by (apply sqrt_sqrt, Rlt_le, norm_pos; exact K). rewrite <- S in N. set (w := wnorm b k q) in *.
    set (x := wave_vector g axis k 0 q) in *. set (y := wave_vector g axis k 1 q) in *. set (z := wave_vector g axis k 2 q) in *.
    transitivity ((x * x + y * y + z * z) / (w * w))%R; [field; lra|]. rewrite N. field. lra.
  Qed.
  Lemma propagator_mod d q : Cmod (propagator b d q) = 1%R.
  Proof. rewrite (propagator_real b k) by assumption. apply cis_mod. Qed.
  Lemma settle_mod s c q : Cmod (field_hat (settle b s) c q) = Cmod (field_hat s c q).
  Proof. unfold settle. destruct (tiny _); [reflexivity|]. cbn [field_hat]. rewrite Cmod_mult, propagator_mod. ring. Qed.
  Lemma read_mod s c q : Cmod (read_ft b s c q) = Cmod (field_hat s c q).
  Proof. apply settle_mod. Qed.
  Lemma read_power s : pow (read_ft b s) = pow (field_hat s).
  Proof. apply vnorm2_ext. intros; apply read_mod. Qed.
  Lemma shape_inside : inside sh origin.
  Proof.
    destruct G as (L & _ & N & _). unfold bshape. destruct (rshape g) as [|n0 [|n1 [|n2 [|]]]]; try discriminate L. inversion N as [|? ? N0 N']; subst. inversion N' as [|? ? N1 N'']; subst. inversion N'' as [|? ? N2 _]; subst.
    repeat constructor; assumption.
  Qed.
  Lemma uniform_point n : extended b = false -> uniform b n = true.
  Proof.
    intros E. apply uniform_true. intros p Hp. rewrite (point_shape b G E) in Hp. rewrite (point_index p Hp). fold origin. replace (n origin - n origin) with (RtoC 0) by ring. rewrite Cmod_0. pose proof (Cmod_ge_0 (n origin)). lra.
  Qed.
  Lemma excess_mod d x : Cmod (cexp (Ci * bk b * excess b x * RtoC d)) = exp (- (k * (d * snd (x / bn b)%C))).
  Proof.
    unfold cexp. rewrite Cmod_mult, cis_mod, Rmult_1_r, Cmod_R, Rabs_pos_eq by (apply Rlt_le, exp_pos). f_equal. rewrite BK. unfold excess. set (z := x / bn b). destruct z as [x' y]. unfold Ci, RtoC, Cmult, Cminus, Cplus, Copp. cbn. ring.
  Qed.
  Lemma excess_le d x : (0 <= d * snd (x / bn b)%C)%R -> (Cmod (cexp (Ci * bk b * excess b x * RtoC d)%C) <= 1)%R.
  Proof.
    intros H. rewrite excess_mod. rewrite <- exp_0. assert (- (k * (d * snd (x / bn b)%C)) <= 0)%R as [L|L] by nra; [left; apply exp_increasing, L|right; rewrite L; reflexivity].
  Qed.
  Lemma scaled_le (x t : R) : (0 <= x)%R -> (0 <= t <= 1)%R -> (x * t <= x)%R.
  Proof. intros. nra. Qed.
  Lemma interact_power s d n : (forall p, inside sh p -> (0 <= d * snd (n p / bn b)%C)%R) ->
    (pow (field_hat (interact b s d n)) <= pow (field_hat s))%R /\ (extended b = true -> dark (field_hat s) -> dark (field_hat (interact b s d n))).
  Proof.
    intros A. unfold interact. destruct (uniform b n) eqn:U.
    - destruct (tiny _); [split; [lra|tauto]|]. cbn [field_hat]. set (t := cexp _). assert (Cmod t <= 1)%R as T by (apply excess_le, A, shape_inside). pose proof (Cmod_ge_0 t) as T0.
      assert (forall c q, (Cmod (field_hat s c q * t)%C <= Cmod (field_hat s c q))%R) as L by (intros c q; rewrite Cmod_mult; apply scaled_le; [apply Cmod_ge_0|lra]).
      split.
      + apply vnorm2_le. intros c _. apply rsum_over_le. intros q _. specialize (L c q). pose proof (Cmod_ge_0 (field_hat s c q * t)). apply Rmult_le_compat; assumption.
      + intros _ D c q Hc Hq. specialize (L c q). specialize (D c q Hc Hq). lra.
    - destruct (extended b) eqn:E; [|rewrite (uniform_point n E) in U; discriminate U].
      set (f := fun c p => read_field b s c p * _).
      assert (forall c q, (c < bcomp b)%nat -> inside sh q -> field_hat (set_field b f) c q = project b (fun i => to_spectrum g fi (f i)) c q) as S by (intros c q Hc Hq; apply (set_field_spectrum b G); [apply comp_lt, Hc|exact Hq]).
      assert (pow (field_hat (set_field b f)) <= pow (fun i => to_spectrum g fi (f i)))%R as P1.
      { rewrite (vnorm2_ext (bcomp b) sh _ (project b (fun i => to_spectrum g fi (f i)))) by (intros c q Hc Hq; rewrite (S c q Hc Hq); reflexivity). apply project_power. }
      destruct (Beam_Model.negligible b (read_ft b s)) eqn:Neg.
      + assert (forall i q, to_spectrum g fi (f i) q = 0) as Z.
        { intros i q. rewrite (to_spectrum_ext b _ (fun p => 0 * f i p)); [rewrite to_spectrum_scal; ring|]. intros p Hp. unfold f. rewrite (read_field_dark b s i p E) by (apply negligible_spec, Neg). ring. }
        assert (forall c q, (c < bcomp b)%nat -> inside sh q -> field_hat (set_field b f) c q = 0) as Z'.
        { intros c q Hc Hq. rewrite (S c q Hc Hq). unfold project. rewrite csum3. rewrite !Z. destruct (1 <? bcomp b)%nat; ring. }
        split.
        * rewrite (vnorm2_ext (bcomp b) sh (field_hat (set_field b f)) (fun _ _ => RtoC 0)) by (intros c q Hc Hq; rewrite (Z' c q Hc Hq); reflexivity).
          apply vnorm2_le. intros c _. apply rsum_over_le. intros q _. rewrite Cmod_0. pose proof (Cmod_ge_0 (field_hat s c q)). nra.
        * intros _ _ c q Hc Hq. rewrite (Z' c q Hc Hq), Cmod_0. lra.
      + split.
        * apply Rle_trans with (1 := P1). rewrite <- read_power. apply vnorm2_le. intros c Hc.
          rewrite (norm2_ext sh _ (transmit g fi (fun p => cexp (Ci * bk b * excess b (n p) * RtoC d)) (read_ft b s c))).
          -- apply (transmit_power_le b G). intros p Hp. apply excess_le, A, Hp.
          -- intros q _. unfold transmit. apply to_spectrum_ext. intros p Hp. unfold f, read_field. rewrite E, Neg. rewrite to_space_ift by assumption. reflexivity.
        * intros _ D. exfalso. assert (Beam_Model.negligible b (read_ft b s) = true) as X; [|rewrite X in Neg; discriminate Neg].
          apply negligible_spec. intros c q Hc Hq. rewrite read_mod. apply D; assumption.
  Qed.
  Lemma act_power s a : passive sh (bn b) a -> (pow (field_hat (act b s a)) <= pow (field_hat s))%R /\ (extended b = true -> dark (field_hat s) -> dark (field_hat (act b s a))).
  Proof.
    assert (forall s, (pow (field_hat (settle b s)) <= pow (field_hat s))%R /\ (extended b = true -> dark (field_hat s) -> dark (field_hat (settle b s)))) as Se.
    { intros s'. split; [right; apply read_power|]. intros _ D c q Hc Hq. rewrite settle_mod. apply D; assumption. }
    destruct a as [d [n|]| | | |]; cbn [passive act]; intros A; try contradiction; try apply Se.
    - unfold propagate. assert (forall s2, field_hat (if Rltb 0 d then move s2 d else s2) = field_hat s2) as -> by (intros s2; destruct (Rltb 0 d); reflexivity).
      set (s1 := if Rltb d 0 then move s d else s). assert (field_hat s = field_hat s1) as -> by (unfold s1; destruct (Rltb d 0); reflexivity). apply interact_power, A.
    - rewrite propagate_none. destruct (Req_EM_T d 0); cbn [move field_hat]; split; (lra || tauto).
  Qed.
  Lemma run_power l : forall s, Forall (passive sh (bn b)) l -> (pow (field_hat (run b s l)) <= pow (field_hat s))%R /\ (extended b = true -> dark (field_hat s) -> dark (field_hat (run b s l))).
  Proof.
    induction l as [|a l IH]; intros s H; [split; [apply Rle_refl|tauto]|]. inversion H as [|? ? Ha Hl]; subst. destruct (act_power s a Ha) as [P D]. destruct (IH (act b s a) Hl) as [P' D'].
    cbn [run fold_left] in *. split; [eapply Rle_trans; eassumption|tauto].
  Qed.
  Lemma run_power_ft s l : Forall (passive sh (bn b)) l -> (pow (read_ft b (run b s l)) <= pow (read_ft b s))%R.
  Proof. intros H. rewrite !read_power. apply (run_power l s H). Qed.
  Lemma field_power s : Beam_Model.negligible b (read_ft b s) = false \/ extended b = false -> pow (field_hat s) = (INR (points sh) * pow (read_field b s))%R.
  Proof.
    intros H. rewrite <- read_power. unfold vnorm2. rewrite <- rsum_scal. apply rsum_ext. intros c _. rewrite (space_power b G). f_equal. apply norm2_ext. intros p Hp.
    unfold read_field. destruct (extended b) eqn:E; [|apply point_space; assumption]. destruct H as [-> |]; [|discriminate]. symmetry. apply to_space_ift; assumption.
  Qed.
  Lemma field_dark s : extended b = true -> Beam_Model.negligible b (read_ft b s) = true -> pow (read_field b s) = 0%R.
  Proof.
    intros E N. rewrite (vnorm2_ext _ _ _ (fun _ _ => RtoC 0)).
    - unfold vnorm2. rewrite (rsum_ext _ _ (fun _ => 0 * 0)%R); [rewrite rsum_scal; ring|]. intros c _. rewrite Rmult_0_l. unfold norm2. rewrite (rsum_over_ext _ _ (fun _ => 0 * 0)%R) by (intros; rewrite Cmod_0; ring). rewrite rsum_over_scal. ring.
    - intros c p _ _. unfold read_field. rewrite E, N. reflexivity.
  Qed.
  Lemma run_power_field s l : Forall (passive sh (bn b)) l -> (pow (read_field b (run b s l)) <= pow (read_field b s))%R.
  Proof.
    intros H. destruct (run_power l s H) as [P D]. assert (0 < INR (points sh))%R as NP by (apply lt_0_INR, points_pos, G).
    assert (forall s', dark (field_hat s') <-> Beam_Model.negligible b (read_ft b s') = true) as DN.
    { intros s'. rewrite negligible_spec. unfold dark. split; intros X c q Hc Hq; specialize (X c q Hc Hq); rewrite read_mod in *; exact X. }
    destruct (extended b) eqn:E.
    - destruct (Beam_Model.negligible b (read_ft b (run b s l))) eqn:N1.
      + rewrite (field_dark _ E N1). apply vnorm2_nonneg.
      + destruct (Beam_Model.negligible b (read_ft b s)) eqn:N0.
        * apply DN in N0. specialize (D eq_refl N0). apply DN in D. rewrite D in N1. discriminate N1.
        * rewrite (field_power _ (or_introl N0)), (field_power _ (or_introl N1)) in P. apply Rmult_le_reg_l with (2 := P). exact NP.
    - rewrite (field_power _ (or_intror E)), (field_power s (or_intror E)) in P. apply Rmult_le_reg_l with (2 := P). exact NP.
  Qed.
End Power.

(** ** Beams without loss *)
Section Lossless.
  Variables (b : setup) (k : R).
  Hypotheses (G : section_grid (bgrid b) (baxis b)) (K : (0 < k)%R) (BK : bk b = RtoC k) (One : bcomp b = 1%nat).
  Notation g := (bgrid b).
  Notation axis := (baxis b).
  Notation fi := (bfirst b).
  Notation sh := (bshape b).
  Definition lossless (m : option sfield) : Prop := match m with None => True | Some n => forall p, inside sh p -> snd (n p / bn b)%C = 0%R end.
  Lemma spectra_power d media : Forall lossless media -> forall F, Forall (fun F' => norm2 sh F' = norm2 sh F) (spectra g fi axis k (bn b) d media F).
  Proof.
    induction media as [|m media IH]; intros L F; [constructor|]. inversion L as [|? ? Lm L']; subst. cbn [spectra]. cbv zeta.
    assert (norm2 sh (through g fi axis k (bn b) d m F) = norm2 sh F) as E.
    { destruct m as [n|]; unfold through, split_step; rewrite (diffract_power b k); [|reflexivity]. apply (transmit_power b G). intros p Hp. rewrite (transmittance_mod b k), (Lm p Hp), Rmult_0_r, Ropp_0. apply exp_0. }
    constructor; [exact E|]. eapply Forall_impl; [|apply IH, L']. cbn beta. intros F' H. rewrite H. exact E.
  Qed.
  Lemma beam_power F first step media : (0 < step)%R -> resolved step -> resolved (first - step) -> resolved first -> Forall (noticed g (bn b)) media -> Forall lossless media ->
    let F0 := diffract g axis k (first - step) (F 0%nat) in Forall (seen b) (F0 :: spectra g fi axis k (bn b) step media F0) ->
    Forall (fun f : vfield => norm2 sh (f 0%nat) = norm2 sh (to_space g fi (F 0%nat))) (fst (beam_field b (enter b (set_ft b F) first step) step media)).
  Proof.
    intros D RD R0 R1 L LL F0 V. pose proof (beam_slices b k G K BK One F first step media D RD R0 R1 L V) as H. fold F0 in H.
    pose proof (spectra_power step media LL F0) as P. remember (spectra g fi axis k (bn b) step media F0) as Fs. remember (fst (beam_field b (enter b (set_ft b F) first step) step media)) as fs. clear Heqfs HeqFs V.
    assert (0 < INR (points sh))%R as NP by (apply lt_0_INR, points_pos, G).
    revert P. induction H as [|f F' fs Fs H1 H2 IH]; intros P; inversion P as [|? ? P1 P2]; subst; constructor; [|apply IH; assumption].
    rewrite (norm2_ext sh _ _ H1). apply Rmult_eq_reg_l with (INR (points sh)); [|lra]. rewrite <- !(space_power b G). rewrite P1. unfold F0. apply (diffract_power b k).
  Qed.
End Lossless.
