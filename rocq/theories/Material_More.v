(** Statements about the material properties, as in Material_Properties. *)
From Coq Require Import Reals Lra Lia List Arith Bool.
Require Import Verif.Base Verif.Cplx Verif.CSum Verif.Field Verif.Fourier_Model Verif.Fourier_Spec Verif.Fourier_Proofs Verif.Display_Model.
Require Import Verif.Vec_Model Verif.Vec_Spec Verif.Vec_Proofs Verif.Solver_Model Verif.Solver_Spec Verif.Solver_Proofs Verif.Solver_Choice.
Require Import Verif.Choice_Model Verif.Choice_Proofs Verif.Choice_Construct Verif.Choice_Gain.
Require Import Verif.Array_Model Verif.Array_Spec Verif.Array_Proofs Verif.Array_Glue Verif.Material_Model Verif.Material_Spec Verif.Material_Proofs Verif.Material_Waves.
Import ListNotations.
Local Open Scope R_scope.
Local Open Scope C_scope.

Lemma read_plain gs e te index mu tmu : given gs e te -> given gs mu tmu ->
  exists e' mu', read_materials 3 (length gs) (Some e) index mu {| b_electric := None; b_magnetic := None |} = Ok (e', mu') /\ represents gs e' te /\ represents gs mu' tmu.
Proof. intros He Hm. eexists. eexists. split; [reflexivity|]. split; apply given_rep; assumption. Qed.
Lemma read_bound gs e te index mu tmu b chi : given gs e te -> given gs mu tmu -> susceptibility gs b chi ->
  exists e' mu', read_materials 3 (length gs) (Some e) index mu {| b_electric := Some b; b_magnetic := None |} = Ok (e', mu') /\
    represents gs e' (plus_isotropic te chi) /\ represents gs mu' tmu.
Proof.
  intros He Hm Hb. destruct (electric_added gs 3 e b te chi (or_intror eq_refl) He Hb) as (c & E & G). unfold read_materials. cbn [bind fst snd b_electric b_magnetic]. rewrite E. cbn [bind].
  eexists. eexists. split; [reflexivity|]. split; apply given_rep; assumption.
Qed.
Lemma read_scalar gs e f index mu h b chi : given gs e (TScalar f) -> given gs mu (TScalar h) -> susceptibility gs b chi ->
  exists e' mu', read_materials 1 (length gs) (Some e) index mu {| b_electric := Some b; b_magnetic := None |} = Ok (e', mu') /\
    represents gs e' (TScalar (fun p => f p + chi p)) /\ represents gs mu' (TScalar h).
Proof.
  intros He Hm Hb. destruct (electric_added gs 1 e b (TScalar f) chi (or_introl (conj eq_refl (ex_intro _ f eq_refl))) He Hb) as (c & E & G).
  unfold read_materials. cbn [bind fst snd b_electric b_magnetic]. rewrite E. cbn [bind]. eexists. eexists. split; [reflexivity|]. split; apply given_rep; assumption.
Qed.
Lemma read_index gs n tn mu tmu : given gs n tn -> given gs mu tmu ->
  exists e' mu' te tmu', read_materials 3 (length gs) None (Some n) mu {| b_electric := None; b_magnetic := None |} = Ok (e', mu') /\
    represents gs e' te /\ represents gs mu' tmu' /\ negated_where (negative_index tn) (square tn) te /\ negated_where (negative_index tn) tmu tmu'.
Proof.
  intros Hn Hm. destruct (index_read gs n mu tn tmu Hn Hm) as (e & m & te & tu & E & G1 & G2 & N1 & N2). unfold read_materials. rewrite E. cbn [bind fst snd b_electric b_magnetic].
  eexists. eexists. exists te, tu. split; [reflexivity|]. split; [apply given_rep, G1|]. split; [apply given_rep, G2|]. split; assumption.
Qed.
Lemma given_number gs x : given gs (number x) (TScalar (fun _ => x)).
Proof.
  split; [|reflexivity]. split; unfold adim; cbn [number ashape length]; [lia|]. unfold lpad. cbn [length]. rewrite Nat.sub_0_r, app_nil_r.
  exact (ones_spatial (1%nat :: 1%nat :: gs)).
Qed.
Lemma read_default gs mu tmu : given gs mu tmu ->
  exists e' mu', read_materials 3 (length gs) None None mu {| b_electric := None; b_magnetic := None |} = Ok (e', mu') /\ represents gs e' (TScalar (fun _ => 1)) /\ represents gs mu' tmu.
Proof.
  intros Hm. destruct (read_index gs (number 1) (TScalar (fun _ => 1)) mu tmu (given_number gs 1) Hm) as (e & m & te & tu & E & G1 & G2 & N1 & N2). exists e, m. split; [exact E|].
  assert (P : forall p, ~ negative_index (TScalar (fun _ => RtoC 1)) p) by (intros p; cbn; lra). split.
  - destruct te as [h|h]; [|destruct N1]. destruct G1 as (s & E1 & E2 & E3). exists s. repeat split; try assumption. intros p Hp. rewrite (E3 p Hp). destruct (N1 p) as [_ K]. rewrite (K (P p)). ring.
  - destruct tmu as [h|h], tu as [h'|h']; try destruct N2; destruct G2 as (s & E1 & E2 & E3); exists s; repeat split; try assumption.
    + intros p Hp. rewrite (E3 p Hp). apply N2, P.
    + intros i j p Hi Hj Hp. rewrite (E3 i j p Hi Hj Hp). apply N2, P.
Qed.
Lemma forms_exist : given [3; 4]%nat (number 2) (TScalar (fun _ => 2)) /\
  given [3; 4]%nat (of_list [RtoC 1; RtoC 2; RtoC 3; RtoC 4]) (TScalar (fun p => RtoC (INR (nth 1 p 0 + 1)%nat))) /\
  given [3; 4]%nat (Arr [3; 3; 3; 1]%nat (fun p => RtoC (INR (nth 0 p 0 + nth 2 p 0)%nat))) (TMatrix (fun i _ p => RtoC (INR (i + nth 0 p 0)%nat))) /\
  susceptibility [3; 4]%nat (Arr [1; 4]%nat (fun p => RtoC (INR (nth 1 p 0%nat)))) (fun p => RtoC (INR (nth 1 p 0%nat))).
Proof.
  split; [apply given_number|]. split; [|split].
  - split.
    + split; [cbn; lia|]. cbn. repeat (apply Forall2_cons; [auto|]). apply Forall2_nil.
    + intros p Hp. inversion Hp as [|? i ? q Hi Hq]; subst. inversion Hq as [|? j ? r Hj Hr]; subst. inversion Hr; subst.
      destruct j as [|[|[|[|j]]]]; [| | | |lia]; cbn; f_equal; f_equal; ring.
  - exists [3; 1]%nat. split; [reflexivity|]. split; [repeat (apply Forall2_cons; [auto|]); apply Forall2_nil|]. intros i j p Hi Hj Hp. inversion Hp as [|? x ? q Hx Hq]; subst. reflexivity.
  - split; [repeat (apply Forall2_cons; [auto|]); apply Forall2_nil|]. intros p Hp. inversion Hp as [|? i ? q Hi Hq]; subst. inversion Hq as [|? j ? r Hj Hr]; subst. inversion Hr; subst. reflexivity.
Qed.
Lemma magnetic_singular gs mu f b chi : given gs mu (TScalar f) -> susceptibility gs b chi ->
  exists mu' m, add_magnetic 3 (length gs) mu b = Ok mu' /\ given gs mu' (TMatrix m) /\
    (forall i j p, i <> j -> m i j p = f p) /\ forall p, chi p = 0 -> det3 (fun i j => m i j p) = 0.
Proof.
  intros Hm Hb. destruct (magnetic_spread gs mu b f chi Hm Hb) as (c & E & G). exists c. eexists. split; [exact E|]. split; [exact G|]. split.
  - intros i j p Hij. cbv beta. destruct (Nat.eqb_spec i j); [contradiction|]. ring.
  - intros p Hp. unfold det3. cbn [Nat.eqb]. rewrite Hp. ring.
Qed.
(** A bound with both susceptibilities: each is added to its own property. *)
Lemma read_magnetic gs e te index mu m b1 chi1 b chi : given gs e te -> given gs mu (TMatrix m) -> susceptibility gs b1 chi1 -> susceptibility gs b chi ->
  exists e' mu', read_materials 3 (length gs) (Some e) index mu {| b_electric := Some b1; b_magnetic := Some b |} = Ok (e', mu') /\
    represents gs e' (plus_isotropic te chi1) /\ represents gs mu' (plus_isotropic (TMatrix m) chi).
Proof.
  intros He Hm H1 Hb. destruct (electric_added gs 3 e b1 te chi1 (or_intror eq_refl) He H1) as (c & E & G). destruct (magnetic_added gs mu b m chi Hm Hb) as (c' & E' & G').
  unfold read_materials. cbn [bind fst snd b_electric b_magnetic]. rewrite E. cbn [bind]. rewrite E'. cbn [bind].
  eexists. eexists. split; [reflexivity|]. split; apply given_rep; assumption.
Qed.
Lemma read_singular gs e te index mu f b1 chi1 b chi : given gs e te -> given gs mu (TScalar f) -> susceptibility gs b1 chi1 -> susceptibility gs b chi ->
  exists e' mu' m, read_materials 3 (length gs) (Some e) index mu {| b_electric := Some b1; b_magnetic := Some b |} = Ok (e', mu') /\
    represents gs e' (plus_isotropic te chi1) /\ represents gs mu' (TMatrix m) /\
    (forall i j p, i <> j -> m i j p = f p) /\ forall p, chi p = 0 -> det3 (fun i j => m i j p) = 0.
Proof.
  intros He Hm H1 Hb. destruct (electric_added gs 3 e b1 te chi1 (or_intror eq_refl) He H1) as (c & E & G). destruct (magnetic_singular gs mu f b chi Hm Hb) as (c' & m & E' & G' & K1 & K2).
  unfold read_materials. cbn [bind fst snd b_electric b_magnetic]. rewrite E. cbn [bind]. rewrite E'. cbn [bind].
  eexists. eexists. exists m. split; [reflexivity|]. split; [apply given_rep, G|]. split; [apply given_rep, G'|]. split; assumption.
Qed.
Lemma index_passive gs n f mu m : given gs n (TScalar f) -> given gs mu (TScalar (fun _ => RtoC m)) -> (forall p, inside gs p -> (0 <= snd (f p))%R) ->
  exists e' mu' te tmu', read_materials 3 (length gs) None (Some n) mu {| b_electric := None; b_magnetic := None |} = Ok (e', mu') /\
    represents gs e' te /\ represents gs mu' tmu' /\ absorbs 3 gs te 0 /\ absorbs 3 gs tmu' 0.
Proof.
  intros Hn Hm Hp. destruct (read_index gs n (TScalar f) mu _ Hn Hm) as (e & m' & te & tu & E & G1 & G2 & N1 & N2). exists e, m', te, tu. repeat split; try assumption.
  - destruct te as [h|h]; [|destruct N1]. apply absorbs_scalar. intros p Hi. specialize (Hp p Hi). destruct (N1 p) as [A B]. cbn [negative_index] in A, B. destruct (Rlt_dec (fst (f p)) 0) as [L|L].
    + rewrite (A L). destruct (f p) as [x y]. cbn in *. nra.
    + rewrite (B L). destruct (f p) as [x y]. cbn in *. nra.
  - destruct tu as [h|h]; [|destruct N2]. apply absorbs_scalar. intros p Hi. destruct (N2 p) as [A B]. cbn [negative_index] in A, B. destruct (Rlt_dec (fst (f p)) 0) as [L|L].
    + rewrite (A L). cbn. lra.
    + rewrite (B L). cbn. lra.
Qed.
Lemma negative_unwarned eps g n : (0 < eps)%R -> (2 * eps <= 1)%R -> (fst n < 0)%R -> (0 < snd n < - fst n)%R -> warns eps (rshape g) (tuniform (- (n * n))) tzero tzero (tuniform (- (1))) = false.
Proof. intros He H1 Hr Hi. unfold warns. rewrite (ng_no_gain eps g n He H1 (ltac:(lra))). apply andb_false_r. Qed.

Definition four : raster := {| rshape := [4%nat]; rstep := [(PI / 2)%R] |}.
Lemma four_proper : proper four.
Proof. repeat split; cbn; repeat constructor; pose proof PI_RGT_0; lra || lia. Qed.
Lemma four_k2 : k2 four [1%nat] = 1%R.
Proof. unfold k2, kvec, k_axis. cbn. pose proof PI_RGT_0. field. lra. Qed.
Lemma four_resonates : solvable true four 1 /\ inside (rshape four) [1%nat] /\ k2 four [1%nat] = (1 * 1 * (fst (-5 / 4, 3 / 4) * fst (-5 / 4, 3 / 4) - snd (-5 / 4, 3 / 4) * snd (-5 / 4, 3 / 4)))%R /\
  csum (rndim four) (fun i => RtoC (kvec four i [1%nat]) * (fun c => if Nat.eqb c 1 then 1 else 0) i) = 0.
Proof.
  split; [split; [exact four_proper|]; split; [lra|intros _; cbn; lia]|]. split; [repeat constructor|]. split; [rewrite four_k2; cbn; lra|]. cbn. ring.
Qed.

Lemma real_permeability eps v g k0 epsilon m settled kappa S F : (0 < eps)%R -> (2 * eps <= 1)%R -> solvable v g k0 -> fits v epsilon ->
  let n := (if v then 3 else 1)%nat in absorbs n (rshape g) epsilon 0 -> (0 < m)%R -> (800 * sqrt eps * (m * m) < 1)%R ->
  let o := construct eps g k0 v epsilon tzero tzero (tuniform (RtoC m)) settled kappa S in
  vagree n (rshape g) (update o F) (fun _ _ => 0) <-> wave_equation_in (RtoC m) v g k0 epsilon (electric_field k0 F) S.
Proof.
  intros He H1 Hs Hf n Ha Hm Hq o. assert (Eb : fst (1 / RtoC m) = (/ m)%R) by (rewrite <- RtoC_div by lra; cbn; field; lra).
  assert (Hq' : (800 * sqrt eps < fst (1 / RtoC m)%C * fst (1 / RtoC m)%C)%R).
  { rewrite Eb. apply Rmult_lt_reg_r with (m * m)%R; [nra|]. replace (/ m * / m * (m * m))%R with 1%R by (field; lra). exact Hq. }
  pose proof (ly_fixed eps v g k0 epsilon (RtoC m) settled kappa S He H1 Hs Hf Ha Hm (Rle_refl 0) Hq' F) as L. rewrite Eb in L. etransitivity; [exact L|]. unfold wave_equation, wave_equation_in.
  assert (Hm' : RtoC m <> 0) by (apply RtoC_neq; lra).
  split; intros H c p Hc Hp; rewrite <- (H c p Hc Hp); rewrite RtoC_inv by lra; field; exact Hm'.
Qed.
Lemma lossy_permeability eps v g k0 epsilon mu settled kappa S F : (0 < eps)%R -> (2 * eps <= 1)%R -> solvable v g k0 -> fits v epsilon ->
  let n := (if v then 3 else 1)%nat in absorbs n (rshape g) epsilon 0 -> (0 < fst mu)%R -> (0 < snd mu)%R -> (800 * sqrt eps < fst (1 / mu)%C * fst (1 / mu)%C)%R ->
  let o := construct eps g k0 v epsilon tzero tzero (tuniform mu) settled kappa S in let E := electric_field k0 F in
  vagree n (rshape g) (update o F) (fun _ _ => 0) ->
  wave_equation v g k0 (fst (1 / mu)) epsilon E S /\ (wave_equation_in mu v g k0 epsilon E S -> vagree n (rshape g) (curl_curl_op v g E) (fun _ _ => 0)).
Proof.
  intros He H1 Hs Hf n Ha Hr Hi Hq o E H. split.
  - apply (ly_fixed eps v g k0 epsilon mu settled kappa S He H1 Hs Hf Ha Hr (Rlt_le _ _ Hi) Hq F). exact H.
  - apply (ly_wrong eps v g k0 epsilon mu settled kappa S He H1 Hs Hf Ha Hr (Rlt_le _ _ Hi) Hq F H). lra.
Qed.
Lemma four_wave p : inside (rshape four) p -> curl_curl_op false four (fun _ p => plane_wave four [1%nat] p) 0%nat p = plane_wave four [1%nat] p.
Proof.
  intros Hp. unfold curl_curl_op, laplacian.
  assert (E : convolve (rshape four) (fun F c k => RtoC (- k2 four k) * F c k) (fun _ p => plane_wave four [1%nat] p) 0%nat p = - (1) * plane_wave four [1%nat] p).
  { replace (fun (_ : nat) p => plane_wave four [1%nat] p) with (fun (c : nat) p => (fun _ => RtoC 1) c * plane_wave four [1%nat] p) by
      (apply FunctionalExtensionality.functional_extensionality; intros c; apply FunctionalExtensionality.functional_extensionality; intros q; ring).
    apply (convolve_plane_wave four 1 _ (fun _ => RtoC 1) (fun _ _ => - (1)) [1%nat] 0 p four_proper); try assumption; [repeat constructor|lia| | |].
    - intros F G q Hq H c Hc. rewrite (H c Hc). reflexivity.
    - intros x. cbv beta. rewrite four_k2. rewrite RtoC_opp. ring.
    - intros k Hk. ring. }
  rewrite E. ring.
Qed.
Lemma lossy_exists : let eps := (1 / 1000 * (1 / 1000) * (1 / 1000 * (1 / 1000)))%R in let mu := (1, 1)%R in
  (0 < eps)%R /\ (2 * eps <= 1)%R /\ solvable false four 1 /\ (800 * sqrt eps < fst (1 / mu)%C * fst (1 / mu)%C)%R /\
  exists S F, vagree 1 (rshape four) (update (construct eps four 1 false (tuniform 1) tzero tzero (tuniform mu) (1, 1)%R None S) F) (fun _ _ => 0) /\
    ~ vagree 1 (rshape four) (curl_curl_op false four (electric_field 1 F)) (fun _ _ => 0).
Proof.
  intros eps mu. assert (He : (0 < eps)%R) by (unfold eps; lra). assert (H1 : (2 * eps <= 1)%R) by (unfold eps; lra).
  assert (Hs : solvable false four 1) by (split; [exact four_proper|]; split; [lra|discriminate]).
  assert (Eb : fst (1 / mu) = (1 / 2)%R) by (unfold mu; cbn; field).
  assert (Hq : (800 * sqrt eps < fst (1 / mu)%C * fst (1 / mu)%C)%R) by (rewrite Eb; unfold eps; rewrite sqrt_square by lra; lra).
  split; [exact He|]. split; [exact H1|]. split; [exact Hs|]. split; [exact Hq|].
  set (F := fun (_ : nat) p => plane_wave four [1%nat] p).
  assert (EF : forall c p, electric_field 1 F c p = F c p).
  { intros c p. unfold electric_field. rewrite Rmult_1_l. field. apply RtoC_neq. lra. }
  assert (EF' : electric_field 1 F = F) by (apply FunctionalExtensionality.functional_extensionality; intros c; apply FunctionalExtensionality.functional_extensionality; intros p; apply EF).
  exists (fun c p => RtoC (fst (1 / mu)) * curl_curl_op false four (electric_field 1 F) c p - RtoC (1 * 1) * tapply (tuniform 1) (electric_field 1 F) c p), F. split.
  - apply (ly_fixed eps false four 1 (tuniform 1) mu (1, 1)%R None _ He H1 Hs I (absorbs_uniform 1 (rshape four) 1 (Rle_refl 0)) ltac:(cbn; lra) ltac:(cbn; lra) Hq F).
    intros c p Hc Hp. reflexivity.
  - rewrite EF'. intros H. assert (Hp : inside (rshape four) [0%nat]) by (repeat constructor). specialize (H 0%nat [0%nat] ltac:(lia) Hp). unfold F in H. rewrite four_wave in H by exact Hp.
    assert (M : Cmod (plane_wave four [1%nat] [0%nat]) = 1%R) by apply cis_mod. rewrite H, Cmod_0 in M. lra.
Qed.
