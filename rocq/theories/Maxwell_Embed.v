(** Magnetic and chiral problems that do not vary along an axis. *)
From Coq Require Import Reals Lra Lia List Arith Bool FunctionalExtensionality.
Require Import Verif.Base Verif.Cplx Verif.CSum Verif.Field Verif.Fourier_Model Verif.Fourier_Spec Verif.Fourier_Proofs.
Require Import Verif.Vec_Model Verif.Vec_Spec Verif.Vec_Proofs Verif.Solver_Model Verif.Solver_Spec Verif.Solver_Proofs Verif.Choice_Model Verif.Choice_Proofs Verif.Derived_Model Verif.Derived_Spec Verif.Derived_Tensor Verif.Magnetic_Spec.
Require Import Verif.Symmetry_Spec Verif.Symmetry_Embed Verif.Cell_Proofs Verif.Maxwell_Spec Verif.Maxwell_Proofs.
Import ListNotations.
Local Open Scope R_scope.
Local Open Scope C_scope.

(** A field at the points with number j on the last axis. *)
Definition slice (F : vfield) (j : nat) : vfield := fun c p => F c (p ++ [j]).
Lemma tapply_slice t F c p j : tapply (spread_tensor t) F c (p ++ [j]) = tapply t (slice F j) c p.
Proof. destruct t as [f|m]; cbn [spread_tensor tapply]; rewrite removelast_last; reflexivity. Qed.
Lemma tapply_slice_fun t F j : slice (tapply (spread_tensor t) F) j = tapply t (slice F j).
Proof. apply functional_extensionality. intros c. apply functional_extensionality. intros p. apply tapply_slice. Qed.
Lemma slice_spread F j : slice (spread F) j = F.
Proof. apply functional_extensionality. intros c. apply functional_extensionality. intros p. unfold slice, spread. rewrite removelast_last. reflexivity. Qed.
Lemma at_point_spread t (w : nat -> C) p j i : at_point (spread_tensor t) w (p ++ [j]) i = at_point t w p i.
Proof. unfold at_point. rewrite tapply_slice. reflexivity. Qed.

Section Embedded.
Variables (g : raster) (n : nat) (d : R).
Let g' := extruded g n d.
Let s := rshape g.
Let s' := rshape g ++ [n].
Hypothesis Hn : (0 < n)%nat.
Hypothesis Hd : d <> 0%R.
Hypothesis Hdim : (rndim g < 3)%nat.
Hypothesis Hg : proper g.
Local Notation st := spread_tensor.

Lemma em_dim : (rndim g' <= 3)%nat.
Proof. unfold g'. rewrite ex_ndim. lia. Qed.
Lemma em_proper : proper g'.
Proof.
  destruct Hg as (L & S & D). unfold g', extruded. split; [cbn [rstep rshape]; rewrite !app_length, L; reflexivity|]. cbn [rstep rshape]. split; apply Forall_app; split; try assumption; repeat constructor; assumption.
Qed.
Lemma em_wavevector k i : inside s k -> (i < 3)%nat -> wavevector g' (k ++ [0%nat]) i = wavevector g k i.
Proof.
  intros Hk Hi. unfold wavevector, g'. rewrite ex_ndim. destruct (Nat.ltb_spec i (rndim g)) as [L|L].
  - destruct (Nat.ltb_spec i (rndim g + 1)); [|lia]. apply (ex_kvec g n d true); assumption.
  - destruct (Nat.ltb_spec i (rndim g + 1)); [|reflexivity]. replace i with (rndim g) by lia. apply (ex_kvec_last g n d true); assumption.
Qed.
Lemma em_curl F : vagree 3 s' (curl g' 3 (spread F)) (spread (curl g 3 F)).
Proof.
  intros c q Hc Hq. apply inside_app in Hq as (p & j & -> & Hp & Hj). unfold spread at 2. rewrite removelast_last.
  apply (convolve_spread s n 3 (curl_ft g 3 3) (curl_ft g' 3 3) F Hn (curl_pointwise_any g s 3) (curl_multiplies_any g s 3) (curl_pointwise_any g' (s ++ [n]) 3) (curl_multiplies_any g' (s ++ [n]) 3)); try assumption.
  intros G c' k Hc' Hk. rewrite (curl_ft_cross g' _ c' _ em_dim Hc'), (curl_ft_cross g _ c' k) by (lia || assumption).
  unfold cross3. destruct c' as [|[|c']]; rewrite !em_wavevector by (assumption || lia); reflexivity.
Qed.
Lemma em_tapply t F c q : inside s' q -> tapply (st t) (spread F) c q = spread (tapply t F) c q.
Proof. intros Hq. apply inside_app in Hq as (p & j & -> & Hp & Hj). rewrite tapply_slice, slice_spread. unfold spread. rewrite removelast_last. reflexivity. Qed.
Lemma em_maxwell u k0 epsilon xi zeta mu E H J : maxwell u g k0 epsilon xi zeta mu E H J -> maxwell u g' k0 (st epsilon) (st xi) (st zeta) (st mu) (spread E) (spread H) (spread J).
Proof.
  intros [F A]. split; intros c q Hc Hq; change (rshape g') with s' in Hq.
  - rewrite (em_curl E c q Hc Hq). unfold constitutive_B. rewrite !em_tapply by exact Hq. apply inside_app in Hq as (p & j & -> & Hp & Hj). unfold spread. rewrite removelast_last. exact (F c p Hc Hp).
  - rewrite (em_curl H c q Hc Hq). unfold constitutive_D. rewrite !em_tapply by exact Hq. apply inside_app in Hq as (p & j & -> & Hp & Hj). unfold spread. rewrite removelast_last. exact (A c p Hc Hp).
Qed.
Lemma em_inverse mu nu : inverse_of s mu nu -> inverse_of s' (st mu) (st nu).
Proof.
  intros H F. split; intros c q Hc Hq; apply inside_app in Hq as (p & j & -> & Hp & Hj); rewrite tapply_slice, tapply_slice_fun; [exact (proj1 (H (slice F j)) c p Hc Hp)|exact (proj2 (H (slice F j)) c p Hc Hp)].
Qed.
Lemma em_coupling xi zeta nu kappa : (forall G, vagree 3 s (coupling xi zeta nu G) (fun c p => kappa * G c p)) -> forall G, vagree 3 s' (coupling (st xi) (st zeta) (st nu) G) (fun c p => kappa * G c p).
Proof.
  intros H G c q Hc Hq. apply inside_app in Hq as (p & j & -> & Hp & Hj). unfold coupling. rewrite !tapply_slice, !tapply_slice_fun. exact (H (slice G j) c p Hc Hp).
Qed.
Lemma em_absorbs epsilon xi zeta mu loss : absorbs_both s epsilon xi zeta mu loss -> absorbs_both s' (st epsilon) (st xi) (st zeta) (st mu) loss.
Proof.
  intros H q E M Hq. apply inside_app in Hq as (p & j & -> & Hp & Hj). rewrite (csum_ext 3 _ (fun i => Cconj (E i) * (at_point epsilon E p i + at_point xi M p i) + Cconj (M i) * (at_point zeta E p i + at_point mu M p i))%C); [exact (H p E M Hp)|].
  intros i _. rewrite !at_point_spread. reflexivity.
Qed.
Lemma em_magnetic xi zeta mu : is_magnetic s' (st xi) (st zeta) (st mu) = is_magnetic s xi zeta mu.
Proof.
  assert (A : forall t y, allclose s' (st t) y = allclose s t y).
  { intros t y. unfold allclose, all_over. f_equal. rewrite <- (any_over_spread s n _ Hn). f_equal. apply functional_extensionality. intros q. destruct t as [f|m]; reflexivity. }
  assert (B : first s' (st mu) = first s mu).
  { unfold first, s', s. rewrite map_app. cbn [map]. destruct mu as [f|m]; cbn [spread_tensor elements flat_map map app hd]; rewrite removelast_last; reflexivity. }
  unfold is_magnetic. rewrite !A, B. reflexivity.
Qed.
Lemma em_problem eps k0 epsilon xi zeta mu settled settled' loss : magnetic_problem eps g k0 epsilon xi zeta mu settled loss ->
  (20 * sqrt (2 * sqrt eps) * ((1 + highest_frequency g' k0) * (1 + highest_frequency g' k0)) < snd settled' * snd settled')%R ->
  magnetic_problem eps g' k0 (st epsilon) (st xi) (st zeta) (st mu) settled' loss.
Proof.
  intros (He & He1 & (_ & Hs & _) & Hk0 & (nu & Hnu & kappa & Hc) & M & _ & Hl & Ha) Pr.
  refine (conj He (conj He1 (conj (conj em_proper (conj Hs (fun _ => em_dim))) (conj Hk0 (conj _ (conj _ (conj Pr (conj Hl _)))))))).
  - exists (st nu). split; [apply em_inverse, Hnu|]. exists kappa. apply em_coupling, Hc.
  - change (rshape g') with s'. rewrite em_magnetic. exact M.
  - apply em_absorbs, Ha.
Qed.
Lemma em_driving u k0 J : spread (driving u k0 J) = driving u k0 (spread J).
Proof. reflexivity. Qed.
End Embedded.

Lemma magnetic_axis_proof eps u g n d k0 epsilon xi zeta mu settled settled' thick thick' loss J E : physical u -> magnetic_problem eps g k0 epsilon xi zeta mu settled loss -> (0 < n)%nat -> d <> 0%R -> (rndim g < 3)%nat ->
  (20 * sqrt (2 * sqrt eps) * ((1 + highest_frequency (extruded g n d) k0) * (1 + highest_frequency (extruded g n d) k0)) < snd settled' * snd settled')%R ->
  computes 3 (rshape g) k0 (construct eps g k0 true epsilon xi zeta mu settled thick (driving u k0 J)) E ->
  computes 3 (rshape g ++ [n]) k0 (construct eps (extruded g n d) k0 true (spread_tensor epsilon) (spread_tensor xi) (spread_tensor zeta) (spread_tensor mu) settled' thick' (driving u k0 (spread J))) (spread E).
Proof.
  intros U Pb Hn Hd Hdim Pr C. pose proof Pb as (_ & _ & (Hg & _) & _). destruct (computed _ u _ _ _ _ _ _ _ _ _ _ _ U Pb C) as (H & HM).
  exact (solution_computed _ u _ _ _ _ _ _ _ _ _ _ _ _ U (em_problem g n d Hn Hd Hdim Hg _ _ _ _ _ _ _ _ _ Pb Pr) (em_maxwell g n d Hn Hdim Hg u k0 epsilon xi zeta mu E H J HM)).
Qed.
