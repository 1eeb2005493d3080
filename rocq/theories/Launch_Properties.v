(** C152-C153: a beam is the superposition of plane waves that its arguments state. *)
From Coq Require Import Reals List Arith ZArith Bool Lia Lra.
Require Import Verif.Base Verif.Num Verif.Grid_Model Verif.Grid_Spec Verif.Grid_Proofs Verif.CSum Verif.Field Verif.Fourier_Model Verif.Fourier_Spec Verif.Fourier_Proofs Verif.Vec_Model Verif.Modes_Model Verif.Array_Model Verif.Beam_Model Verif.Beam_Spec.
Require Import Verif.Launch_Model Verif.Launch_Spec Verif.Launch_Proofs Verif.Launch_Results Verif.Beam_Proofs Verif.Cplx.
Import ListNotations.
Local Open Scope R_scope.
Local Open Scope C_scope.

(** Beam(grid, ...).field() has a slice for each point along the propagation axis of the given grid; its values are those of the plane waves that make
    up the given field, at the coordinates of the given grid. *)
Theorem beam_from_arguments_partial : forall (l : beam_args) (a : nat) (crd : nat -> list R) (nb k : R) (n : nat) (F : vfield),
  let g := l_grid l in let z := crd (a - offset g)%nat in
  plain g -> (forall i, (i < ndim RN g)%nat -> coordinates g i = Ok (crd i)) -> asked_axis g (l_axis l) a -> asked_background l nb -> asked_k l nb k ->
  asked_spectrum g a crd l n F -> ordered_axis g a z -> lit (rshape (across g a)) n (wave_part g a k n F) ->
  exists fs, beam_result l None = Ok fs /\ length fs = length z /\
    forall i c p, (i < length z)%nat -> (c < n)%nat -> inside (rshape (across g a)) p ->
      nth i fs (fun _ _ => RtoC 0) c p = diffracted g a crd k (nth i z 0%R) (wave_part g a k n F c) p.
Proof. exact background_result. Qed.
Print Assumptions beam_from_arguments_partial.

(** With slices of refractive index: each is a thin layer followed by a step. *)
Theorem beam_through_arguments_partial : forall (l : beam_args) (a : nat) (crd : nat -> list R) (nb k : R) (n : nat) (F : vfield),
  let g := l_grid l in let z := crd (a - offset g)%nat in let d := step_of g (a - offset g) in
  plain g -> (forall i, (i < ndim RN g)%nat -> coordinates g i = Ok (crd i)) -> asked_axis g (l_axis l) a -> asked_background l nb -> asked_k l nb k ->
  asked_spectrum g a crd l n F -> ordered_axis g a z -> forall media : list sfield, List.Forall (noticeable (across g a) (RtoC nb)) media ->
  let F0 := fun c => diffract (across g a) a k (nth 0 z 0 - d)%R (wave_part g a k n F c) in
  let Fs := behind g a crd k nb d n (firstn (length z) media) F0 in
  List.Forall (lit (rshape (across g a)) n) (F0 :: Fs) ->
  exists fs, beam_result l (Some media) = Ok fs /\
    Forall2 (fun f X => forall c p, (c < n)%nat -> inside (rshape (across g a)) p -> f c p = diffracted g a crd k 0 (X c) p) fs Fs.
Proof. exact medium_result. Qed.
Print Assumptions beam_through_arguments_partial.

(** The flags of the grid are ignored: ifftshifted axes, and axes of which the centre is between two points, which shifts the latter by half a step. *)
Theorem grid_flags_refuted :
  (forall l fl oac cai media, beam_result (on_grid l (flagged (l_grid l) fl oac cai)) media = beam_result l media) /\
  (forall g i, Grid_Spec.regular g -> (i < ndim RN g)%nat -> center_at_index RN g i = true -> Z.even (shape RN g i) = true -> forall fl x y,
    coordinates g i = Ok x -> coordinates (flagged g fl (origin_at_center RN g) (fun _ => false)) i = Ok y -> y = map (fun u => u + step_of g i / 2)%R x) /\
  exists l crd, let g := l_grid l in Grid_Spec.regular g /\ ndim RN g = 1%nat /\ coordinates g 0 = Ok crd /\ asked_background l 1 /\ asked_k l 1 PI /\
    l_field l = Some (FArray (number (RtoC 1))) /\ l_spectrum l = None /\
    exists fs, beam_result l None = Ok fs /\ length fs = length crd /\ length crd = 2%nat /\
      forall i, (i < 2)%nat -> nth i fs (fun _ _ => RtoC 0) 0%nat [0; 0; 0]%nat = cis ((nth i crd 0 - / 2) * PI)%R /\ nth i fs (fun _ _ => RtoC 0) 0%nat [0; 0; 0]%nat <> cis (nth i crd 0 * PI)%R.
Proof. exact flags_ignored. Qed.
Print Assumptions grid_flags_refuted.

(** The wavelength is used when it is given, and so is the refractive index; permittivity and wavenumber are then ignored. The same medium and wave can
    be stated either way. *)
Theorem same_wave_arguments : forall (l : beam_args) (media : option (list sfield)) (n w : C),
  ((0 < fst n)%R \/ fst n = 0%R /\ (0 <= snd n)%R) ->
  beam_result (with_background l (n * n) None) media = beam_result (with_background l (l_permittivity l) (Some n)) media /\
  beam_result (with_wave l (RtoC (2 * PI) / w) None) media = beam_result (with_wave l (l_wavenumber l) (Some w)) media.
Proof. exact same_arguments. Qed.
Print Assumptions same_wave_arguments.

(** A beam needs a field or a spectrum, and functions must have one to three parameters. *)
Theorem beam_refused : forall (l : beam_args) (media : option (list sfield)), plain (l_grid l) -> l_spectrum l = None ->
  match l_field l with None => True | Some (FArray _) => False | Some (FFunction n _) | Some (FVector n _) => n = 0%nat \/ (3 < n)%nat end ->
  (exists a, asked_axis (l_grid l) (l_axis l) a) -> beam_result l media = Err TypeError.
Proof. exact refused_arguments. Qed.
Print Assumptions beam_refused.

(** Examples that meet the hypotheses: a plane of 2 x 2 points with a field that is a function of x, *)
Definition sheet : grid RN :=
  Build_grid RN 2 (fun _ => 2%Z) (Build_vec RN DFlt (fun _ => 1%R)) (Build_vec RN DFlt (fun _ => 0%R)) (fun _ => false) (fun _ => true) (fun _ => true) true false.
Definition sheet_beam : beam_args :=
  {| l_grid := sheet; l_axis := Some (-2)%Z; l_wavenumber := RtoC 1; l_wavelength := Some (RtoC PI); l_permittivity := RtoC 4; l_index := Some (RtoC 1);
     l_field := Some (FFunction 1 (fun xs => RtoC (2 + nth 0 xs 0))); l_spectrum := None |}.
Example sheet_beam_ok : let crd := fun _ : nat => [(-1)%R; 0%R] in
  let F : vfield := fun _ => amplitudes sheet 1 crd (fun p => RtoC (2 + nth (nth 2 p 0%nat) [(-1)%R; 0%R] 0)) in
  plain sheet /\ (forall i, (i < ndim RN sheet)%nat -> coordinates sheet i = Ok (crd i)) /\ asked_axis sheet (l_axis sheet_beam) 1 /\ asked_background sheet_beam 1 /\ asked_k sheet_beam 1 2 /\
  asked_spectrum sheet 1 crd sheet_beam 1 F /\ ordered_axis sheet 1 [(-1)%R; 0%R] /\ lit (rshape (across sheet 1)) 1 (wave_part sheet 1 2 1 F).
Proof.
  intros crd F. refine (conj _ (conj _ (conj _ (conj _ (conj _ (conj _ (conj _ _))))))).
  - split; [split; [reflexivity|split; [discriminate|intros i _; cbn; lia]]|]. split; [cbn; lia|]. intros i _. split; [reflexivity|]. split; [reflexivity|]. intros _. unfold step_of. cbn. lra.
  - intros i Hi. rewrite coordinates_range by ((split; [reflexivity|split; [discriminate|intros j _; cbn; lia]]) || exact Hi). f_equal. transitivity [raw_coordinate RN sheet i 0; raw_coordinate RN sheet i 1]; [reflexivity|].
    rewrite !raw_linear by (cbn; lia). unfold first, step_of. cbn [sheet center step shape center_at_index at_ negb andb]. change (2 / 2)%Z with 1%Z. rn. unfold crd. f_equal; [cbn; lra|]. f_equal. cbn; lra.
  - exists 0%nat. cbn. split; [lia|]. split; [reflexivity|]. right. reflexivity.
  - split; [lra|reflexivity].
  - split; [lra|]. exists PI. split; [reflexivity|]. split; [apply PI_RGT_0|ring].
  - exists (fun _ p => RtoC (2 + nth (nth 2 p 0%nat) [(-1)%R; 0%R] 0)). split; [|reflexivity]. split; [lia|]. split; [reflexivity|]. reflexivity.
  - split; [cbn; lia|]. unfold step_of. cbn. split; [lra|]. assert (forall x, (x <= -1 \/ 1 <= x)%R -> resolved x) as Rs by (intros x H; right; destruct H; [rewrite Rabs_left by lra|rewrite Rabs_right by lra]; lra).
    split; [apply Rs; lra|]. split; apply Rs; lra.
  - left. exists 0%nat, [0; 0; 0]%nat. split; [lia|]. split; [repeat constructor; cbn; lia|].
    assert (forall p, phase sheet 1 crd [0; 0; 0]%nat p = 0%R) as Ph.
    { intros p. unfold phase. rewrite rsum3. assert (forall c, kvec (across sheet 1) c [0; 0; 0]%nat = 0%R) as KZ; [|rewrite !KZ; ring]. intros c. unfold kvec, k_axis. replace (nth c [0; 0; 0]%nat 0%nat) with 0%nat by (destruct c as [|[|[|[|]]]]; reflexivity).
      destruct c as [|[|[|[|]]]]; cbn [nth across rshape map]; unfold Rdiv; try (change (k_index 1 0) with 0%Z; ring); change (k_index _ 0) with 0%Z; ring. }
    change (wave_part sheet 1 2 1 F 0%nat [0; 0; 0]%nat) with (amplitudes sheet 1 crd (fun p => RtoC (2 + nth (nth 2 p 0%nat) [(-1)%R; 0%R] 0)) [0; 0; 0]%nat).
    unfold amplitudes. change (rshape (across sheet 1)) with [1; 1; 2]%nat. cbn [sum_over csum nth]. rewrite !Ph, Ropp_0, cis_0. rewrite !Cmult_1_r, !Cplus_0_l.
    rewrite <- RtoC_plus. rewrite Cmod_R, Rabs_right by lra. lra.
Qed.
(** and a line with a vector field, in a medium. *)
Definition line_beam : beam_args :=
  {| l_grid := centred; l_axis := None; l_wavenumber := RtoC PI; l_wavelength := None; l_permittivity := RtoC 1; l_index := None; l_field := Some (FVector 3 (fun _ c => RtoC (INR c))); l_spectrum := None |}.
Example line_beam_ok : let crd := fun _ : nat => [(-1)%R; 0%R] in let F : vfield := fun c => amplitudes centred 2 crd (fun _ => RtoC (INR c)) in
  let media := [fun _ => RtoC 2; fun _ => RtoC 1] : list sfield in let F0 := fun c => diffract (across centred 2) 2 PI (-2) (wave_part centred 2 PI 3 F c) in
  plain centred /\ asked_axis centred (l_axis line_beam) 2 /\ asked_spectrum centred 2 crd line_beam 3 F /\ List.Forall (noticeable (across centred 2) (RtoC 1)) media /\
  List.Forall (lit (rshape (across centred 2)) 3) (F0 :: behind centred 2 crd PI 1 1 3 media F0).
Proof.
  intros crd F media F0. refine (conj centred_plain (conj eq_refl (conj _ (conj _ _)))).
  - exists (fun c _ => RtoC (INR c)). split; [|reflexivity]. split; [lia|]. split; [reflexivity|]. reflexivity.
  - constructor; [|constructor; [|constructor]]; right; (split; [reflexivity|]); [right|left; reflexivity]. unfold Cdiv. replace (RtoC 2 * / RtoC 1 - RtoC 1)%C with (RtoC 1).
    + rewrite Cmod_R, Rabs_right by lra. lra.
    + rewrite <- RtoC_inv, <- RtoC_mult, <- RtoC_minus by lra. f_equal. field.
  - apply Forall_forall. intros X _. right. intros m Hm. cbn in Hm. lia.
Qed.
