(** Proofs about media that vary along the propagation axis of a beam: C197. *)
From Coq Require Import Reals List Arith Bool ZArith Lia Lra Psatz FunctionalExtensionality.
Require Import Verif.Base Verif.CSum Verif.Field Verif.Fourier_Model Verif.Fourier_Spec Verif.Fourier_Proofs Verif.Vec_Model Verif.Vec_Spec Verif.Vec_Proofs Verif.Modes_Model Verif.Modes_Proofs.
Require Import Verif.Solver_Convergence Verif.Magnetic_Norm Verif.Robust_Spec Verif.Robust_Proofs.
Require Import Verif.Beam_Model Verif.Beam_Spec Verif.Beam_Proofs Verif.Beam_Media Verif.Beam_Slices Verif.Beam_More Verif.Beam_Vector Verif.Beam_Power Verif.Nearby_Spec Verif.Nearby_Proofs Verif.Neglect_Spec Verif.Neglect_Proofs Verif.Detour_Spec Verif.Detour_Proofs Verif.Divide_Spec Verif.Divide_Proofs Verif.Bounds_Proofs Verif.Smooth_Spec Verif.Cplx.
Import ListNotations.
Local Open Scope R_scope.
Local Open Scope C_scope.

Section Smooth.
  Variables (b : setup) (k N L : R) (medium : R -> sfield).
  Hypotheses (G : section_grid (bgrid b) (baxis b)) (K : (0 < k)%R) (BK : bk b = RtoC k) (Comp : bcomp b = 1%nat \/ bcomp b = 3%nat) (Bn : bn b <> 0).
  Hypotheses (N0 : (0 <= N)%R) (L0 : (0 <= L)%R) (Sm : smooth_medium b N L medium).
  Notation sh := (bshape b).
  Notation sz := (size (bcomp b) sh).
  Notation u := (k * (L / Cmod (bn b)))%R.

  Lemma bn_pos : (0 < Cmod (bn b))%R. Proof. apply Cmod_gt_0, Bn. Qed.
  Lemma u_nonneg : (0 <= u)%R.
  Proof. pose proof bn_pos. apply Rmult_le_pos; [lra|]. apply Rmult_le_pos; [exact L0|left; apply Rinv_0_lt_compat; assumption]. Qed.
  Lemma similar_app l1 : forall l1' l2 l2' e1 e2, similar b k e1 l1 l1' -> similar b k e2 l2 l2' -> similar b k (e1 + e2) (l1 ++ l2) (l1' ++ l2').
  Proof.
    induction l1 as [|x l1 IH]; intros [|y l1'] l2 l2' e1 e2 H1 H2; cbn [similar] in H1; try contradiction; cbn [app].
    - revert l2' e2 H2. induction l2 as [|x l2 IH]; intros [|y l2'] e2 H2; cbn [similar] in *; try contradiction; [lra|]. destruct H2 as (a & c & -> & Ha & Hc). exists a, (e1 + c)%R. split; [ring|]. split; [exact Ha|]. apply IH, Hc.
    - destruct H1 as (a & c & -> & Ha & Hc). exists a, (c + e2)%R. split; [ring|]. split; [exact Ha|]. apply IH; assumption.
  Qed.
  Lemma similar_more e e' l l' : (e <= e')%R -> similar b k e l l' -> similar b k e' l l'.
  Proof.
    intros E H. replace e' with (e + (e' - e))%R by ring. rewrite <- (app_nil_r l), <- (app_nil_r l'). apply similar_app; [exact H|]. cbn. lra.
  Qed.
  Lemma whole_nonneg ds : Forall (fun d => 0 < d)%R ds -> (0 <= whole ds)%R.
  Proof. intros H. induction H as [|d ds D H IH]; cbn; [lra|]. unfold whole in IH. lra. Qed.
  Lemma layer_similar w z ds : Forall (fun d => 0 < d)%R ds -> forall o, (0 <= o)%R -> (o + whole ds <= w)%R ->
    similar b k (u * (whole ds * w)) (map (fun d => (d, Some (medium z))) ds) (sampled medium (z + o) ds).
  Proof.
    intros H. pose proof u_nonneg as U. pose proof bn_pos as BP. induction H as [|d ds D H IH]; intros o O W.
    - cbn. lra.
    - cbn [map sampled similar whole fold_right]. fold (whole ds). change (whole (d :: ds)) with (d + whole ds)%R in W. pose proof (whole_nonneg ds H) as Wn. exists (u * (d * w))%R, (u * (whole ds * w))%R. split; [ring|]. split.
      + intros p Hp. unfold detour. cbn [fst snd index_in]. replace (d - d)%R with 0%R by ring. rewrite Rabs_R0, Rplus_0_l.
        replace (RtoC d * (medium z p / bn b - 1) - RtoC d * (medium (z + o)%R p / bn b - 1)) with (RtoC d * ((medium z p - medium (z + o)%R p) / bn b)) by (field; exact Bn).
        rewrite Cmod_mult, Cmod_div, Cmod_R, Rabs_pos_eq by (exact Bn || lra). destruct (Sm z p Hp) as (_ & _ & Lip). specialize (Lip (z + o)%R). replace (z - (z + o))%R with (- o)%R in Lip by ring. rewrite Rabs_Ropp, Rabs_pos_eq in Lip by exact O.
        unfold Rdiv. set (i := (/ Cmod (bn b))%R). assert (0 < i)%R as I by (apply Rinv_0_lt_compat, BP). set (x := Cmod (medium z p - medium (z + o)%R p)) in *. assert (x <= L * w)%R as X by (eapply Rle_trans; [exact Lip|]; apply Rmult_le_compat_l; lra).
        replace (k * (L * i) * (d * w))%R with (k * (d * (L * w * i)))%R by ring. apply Rmult_le_compat_l; [lra|]. apply Rmult_le_compat_l; [lra|]. apply Rmult_le_compat_r; lra.
      + replace (z + o + d)%R with (z + (o + d))%R by ring. apply IH; lra.
  Qed.
  Fixpoint layered (z : R) (dss : list (list R)) : layers := match dss with [] => [] | ds :: dss => (ds, Some (medium z)) :: layered (z + whole ds) dss end.
  Lemma layered_coarse dss : forall z, coarse (layered z dss) = sampled medium z (map whole dss).
  Proof. induction dss as [|ds dss IH]; intros z; [reflexivity|]. cbn [layered coarse map sampled fst snd]. f_equal. apply IH. Qed.
  Lemma sampled_app ds : forall es z, sampled medium z (ds ++ es) = sampled medium z ds ++ sampled medium (z + whole ds) es.
  Proof.
    induction ds as [|d ds IH]; intros es z; cbn [app sampled whole fold_right]; [rewrite Rplus_0_r; reflexivity|]. rewrite IH. f_equal. f_equal. f_equal. unfold whole. ring.
  Qed.
  Lemma layered_similar dss : proper_division dss -> forall z, similar b k (u * squares (layered z dss)) (fine (layered z dss)) (sampled medium z (concat dss)).
  Proof.
    intros H. induction H as [|ds dss [_ P] H IH]; intros z.
    - cbn. lra.
    - cbn [layered fine flat_map concat squares fold_right fst snd]. fold (squares (layered (z + whole ds) dss)). rewrite sampled_app, Rmult_plus_distr_l. apply similar_app; [|apply IH].
      pose proof (layer_similar (whole ds) z ds P 0 ltac:(lra) ltac:(lra)) as S. rewrite Rplus_0_r in S. exact S.
  Qed.
  Lemma layered_proper dss : proper_division dss -> forall z, Forall (proper_layer b N) (layered z dss).
  Proof.
    intros H. induction H as [|ds dss [Ne P] H IH]; intros z; [constructor|]. cbn [layered]. constructor; [|apply IH]. split; [exact Ne|]. cbn [fst snd]. rewrite Forall_forall in P. split.
    - intros d Hd. split; [apply P, Hd|]. intros p Hp. apply (Sm z p Hp).
    - intros p Hp. apply (Sm z p Hp).
  Qed.
  Lemma sampled_passive ds : Forall (fun d => 0 < d)%R ds -> forall z, Forall (passive_slice b) (sampled medium z ds).
  Proof. intros H. induction H as [|d ds D H IH]; intros z; cbn [sampled]; [constructor|]. constructor; [|apply IH]. split; [exact D|]. intros p Hp. apply (Sm z p Hp). Qed.
  Lemma concat_pos dss : proper_division dss -> Forall (fun d => 0 < d)%R (concat dss).
  Proof. intros H. induction H as [|ds dss [_ P] H IH]; [constructor|]. cbn [concat]. apply Forall_app. split; assumption. Qed.
  Lemma map_whole_pos dss : proper_division dss -> Forall (fun d => 0 < d)%R (map whole dss).
  Proof.
    intros H. apply Forall_map. eapply Forall_impl; [|exact H]. intros ds [Ne P]. destruct P as [|d ds D P]; [contradiction|]. cbn. pose proof (whole_nonneg ds P). unfold whole in *. lra.
  Qed.
  Lemma squares_layered h dss : Forall (fun ds => whole ds <= h)%R dss -> proper_division dss -> forall z, (squares (layered z dss) <= h * whole (map whole dss))%R.
  Proof.
    intros T. induction T as [|ds dss Th T IH]; intros P z; [cbn; lra|]. inversion P as [|? ? [_ Pd] P']; subst. cbn [layered squares map whole fold_right fst]. fold (squares (layered (z + whole ds) dss)) (whole (map whole dss)). specialize (IH P' (z + whole ds)%R). pose proof (whole_nonneg ds Pd). unfold whole in *. nra.
  Qed.
  Lemma beam_smooth h z dss F s s' : proper_division dss -> Forall (fun ds => whole ds <= h)%R dss ->
    (gap b (read_ft b (run b s (SetFt F :: there (sampled medium z (map whole dss))))) (read_ft b (run b s' (SetFt F :: there (sampled medium z (concat dss))))) <=
     (k * k * (N * (1 + N)) + u) * (h * whole (map whole dss)) * sz F + slack b k (sampled medium z (map whole dss)) F + slack b k (sampled medium z (concat dss)) F)%R.
  Proof.
    intros P T. set (l := layered z dss). pose proof (layered_proper dss P z) as Pl. fold l in Pl. destruct (proper_fine b N l Pl) as [Ac Af]. pose proof (sampled_passive _ (concat_pos dss P) z) as As.
    pose proof (layered_similar dss P z) as Si. fold l in Si. pose proof (squares_layered h dss T P z) as Sq. fold l in Sq. pose proof u_nonneg as U.
    rewrite <- (layered_coarse dss z). fold l. set (m := sampled medium z (concat dss)) in *.
    pose proof (beam_error b k G K BK Comp Bn F (coarse l) s Ac) as E. pose proof (beam_error b k G K BK Comp Bn F m s' As) as E'.
    pose proof (start_transverse b k G K BK F) as TS. pose proof (layers_divided b k G K BK Comp Bn N l N0 Pl (exact_start b k F) TS) as D.
    pose proof (slices_detour b k G K BK Comp Bn (fine l) m _ (exact_start b k F) (exact_start b k F) Si Af As TS TS) as D'.
    assert (gap b (exact_start b k F) (exact_start b k F) = 0)%R as Z by (unfold gap; rewrite (size_same _ _ _ (fun _ _ => RtoC 0)) by (intros; f_equal; ring); apply zero_size).
    pose proof (start_size b k G K BK Comp F) as PS. set (c := (k * k * (N * (1 + N)))%R) in *. assert (0 <= c)%R as C0 by (unfold c; apply Rmult_le_pos; nra).
    pose proof (size_nonneg (bcomp b) sh (exact_start b k F)) as S0. set (f0 := sz (exact_start b k F)) in *. set (f := sz F) in *. set (w := (h * whole (map whole dss))%R) in *.
    assert (0 <= squares l)%R as Q0 by (clear; induction l as [|x l IH]; cbn; [lra|]; fold (squares l); pose proof (Rle_0_sqr (whole (fst x))); unfold Rsqr in *; lra).
    assert ((c + u) * squares l * f0 <= (c + u) * w * f)%R as M.
    { apply Rmult_le_compat; [apply Rmult_le_pos; lra|exact S0| |exact PS]. apply Rmult_le_compat_l; lra. }
    pose proof (gap_triangle b (read_ft b (run b s (SetFt F :: there (coarse l)))) (exact_slices b k (coarse l) (exact_start b k F)) (read_ft b (run b s' (SetFt F :: there m)))) as T1.
    pose proof (gap_triangle b (exact_slices b k (coarse l) (exact_start b k F)) (exact_slices b k (fine l) (exact_start b k F)) (read_ft b (run b s' (SetFt F :: there m)))) as T2.
    pose proof (gap_triangle b (exact_slices b k (fine l) (exact_start b k F)) (exact_slices b k m (exact_start b k F)) (read_ft b (run b s' (SetFt F :: there m)))) as T3.
    rewrite (gap_sym b (exact_slices b k m (exact_start b k F))) in T3. unfold slack. unfold Nearby_Proofs.floor in E, E'. fold f in E, E'. fold f.
    replace ((c + u) * squares l * f0)%R with (c * squares l * f0 + u * squares l * f0)%R in M by ring. lra.
  Qed.
  Lemma slices_sampled ds : forall z, slices (there (sampled medium z ds)) = length ds.
  Proof. induction ds as [|d ds IH]; intros z; [reflexivity|]. cbn [sampled length]. change (there ((d, Some (medium z)) :: sampled medium (z + d) ds)) with (Propagate d (Some (medium z)) :: there (sampled medium (z + d) ds)). unfold slices in *. cbn. rewrite IH. reflexivity. Qed.
  Lemma field_smooth h z dss f s s' : proper_division dss -> Forall (fun ds => whole ds <= h)%R dss ->
    (gap b (read_field b (run b s (SetField f :: there (sampled medium z (map whole dss))))) (read_field b (run b s' (SetField f :: there (sampled medium z (concat dss))))) <=
     ((k * k * (N * (1 + N)) + u) * (h * whole (map whole dss)) + all_neglected b k (sampled medium z (map whole dss)) + all_neglected b k (sampled medium z (concat dss)) + 2 * (k * / 100000000)) * sz f
     + INR (length dss + length (concat dss) + 1) * (sqrt (INR (bcomp b)) / 100000000))%R.
  Proof.
    intros P T. rewrite !run_start. apply (fields_bound b G). eapply Rle_trans; [exact (beam_smooth h z dss (start b f) s s' P T)|]. unfold slack, Nearby_Proofs.floor. rewrite !slices_sampled, map_length, plus_INR. lra.
  Qed.
End Smooth.
