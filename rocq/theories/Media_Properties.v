(** C155: the media that are given to Beam.field. *)
From Coq Require Import Reals List Arith ZArith Bool Lia Lra.
Require Import Verif.Base Verif.Num Verif.Grid_Model Verif.Grid_Spec Verif.Grid_Proofs Verif.CSum Verif.Field Verif.Fourier_Model Verif.Fourier_Spec Verif.Fourier_Proofs Verif.Vec_Model Verif.Modes_Model Verif.Array_Model Verif.Array_Spec Verif.Whole_Spec Verif.Beam_Model Verif.Beam_Spec.
Require Import Verif.Launch_Model Verif.Launch_Spec Verif.Launch_Proofs Verif.Launch_Results Verif.Launch_Properties Verif.Media_Model Verif.Media_Spec Verif.Media_Proofs Verif.Media_Results Verif.Beam_Proofs Verif.Cplx.
Import ListNotations.
Local Open Scope R_scope.
Local Open Scope C_scope.

(** Beam(grid, ...).field(permittivity=...) and .field(refractive_index=...): the slices can be numbers, arrays that broadcast, or functions of three
    coordinates, in a sequence, or an array of the shape of the grid if its first axis is the propagation axis.  The square root of a permittivity is the
    refractive index of a layer.  There is a slice in the result for each point along the propagation axis; those for which no medium is given are 0. *)
Theorem beam_media_partial : forall (l : beam_args) (a : nat) (crd : nat -> list R) (nb k : R) (n : nat) (F : vfield),
  let g := l_grid l in let z := crd (a - offset g)%nat in let d := step_of g (a - offset g) in
  plain g -> (forall i, (i < ndim RN g)%nat -> coordinates g i = Ok (crd i)) -> asked_axis g (l_axis l) a -> asked_background l nb -> asked_k l nb k ->
  asked_spectrum g a crd l n F -> ordered_axis g a z -> forall (permittivity refractive_index : option media_arg) (media : list sfield),
  asked_media g a crd permittivity refractive_index media -> List.Forall (noticeable (across g a) (RtoC nb)) (firstn (length z) media) ->
  let F0 := fun c => diffract (across g a) a k (nth 0 z 0 - d)%R (wave_part g a k n F c) in
  let Fs := behind g a crd k nb d n (firstn (length z) media) F0 in
  List.Forall (lit (rshape (across g a)) n) (F0 :: Fs) ->
  exists fs, beam_media l permittivity refractive_index = Ok (fs ++ repeat (fun _ _ => RtoC 0) (length z - length media)) /\
    Forall2 (fun f X => forall c p, (c < n)%nat -> inside (rshape (across g a)) p -> f c p = diffracted g a crd k 0 (X c) p) fs Fs.
Proof. exact media_result. Qed.
Print Assumptions beam_media_partial.

(** Functions of y and x are refused, as are all that do not have three parameters. *)
Theorem transverse_functions_refuted : forall (l : beam_args) (a : nat) (crd : nat -> list R) (nb k : R) (n : nat) (F : vfield),
  let g := l_grid l in let z := crd (a - offset g)%nat in
  plain g -> (forall i, (i < ndim RN g)%nat -> coordinates g i = Ok (crd i)) -> asked_axis g (l_axis l) a -> asked_background l nb -> asked_k l nb k ->
  asked_spectrum g a crd l n F -> ordered_axis g a z -> forall (u : nat) (f : list R -> C) (us : list slice_arg), u <> 3%nat -> (0 < length z)%nat ->
  beam_media l None (Some (MSequence (SFunction u f :: us))) = Err TypeError /\ beam_media l (Some (MSequence (SFunction u f :: us))) None = Err TypeError.
Proof. exact functions_refused. Qed.
Print Assumptions transverse_functions_refuted.

(** The first axis of an array is taken for the propagation axis.  Layers along the first axis act as layers along the propagation axis, whichever that is; and
    layers along the propagation axis are refused if it is the last of three. *)
Theorem volume_axis_refuted :
  (forall (l : beam_args) (ns : list C) (A : array), layered_first (l_grid l) ns A ->
    beam_media l None (Some (MVolume A)) = beam_media l None (Some (numbers ns)) /\ beam_media l (Some (MVolume A)) None = beam_media l (Some (numbers ns)) None) /\
  (forall (l : beam_args) (a : nat) (crd : nat -> list R) (nb k : R) (n : nat) (F : vfield),
    let g := l_grid l in let z := crd (a - offset g)%nat in
    plain g -> (forall i, (i < ndim RN g)%nat -> coordinates g i = Ok (crd i)) -> asked_axis g (l_axis l) a -> asked_background l nb -> asked_k l nb k ->
    asked_spectrum g a crd l n F -> ordered_axis g a z -> forall (A : array) (ns : list C), a = 2%nat -> ndim RN g = 3%nat -> layered_last g ns A ->
    (0 < Grid_Spec.points g 0)%nat -> (1 < Grid_Spec.points g 1)%nat ->
    (exists i, (i < length ns)%nat /\ (/ 100000000 + / 100000 * Cmod (nth 0 ns (RtoC 0)) < Cmod (nth i ns (RtoC 0) - nth 0 ns (RtoC 0))%C)%R) ->
    beam_media l None (Some (MVolume A)) = Err ValueError).
Proof. exact (conj layered_taken last_refused). Qed.
Print Assumptions volume_axis_refuted.

(** Examples that meet the hypotheses: a vector field on a line, with an array of indices, and with permittivities as a number and a function; *)
Example line_media : let crd := fun _ : nat => [(-1)%R; 0%R] in let media := [fun _ => RtoC 2; fun _ => RtoC 1] : list sfield in
  asked_media centred 2 crd None (Some (MVolume (of_list [RtoC 2; RtoC 1]))) media /\
  asked_media centred 2 crd (Some (MSequence [SNumber (RtoC 4); SFunction 3 (fun xs => RtoC (1 + nth 0 xs 0))])) None media.
Proof.
  intros crd media. split.
  - cbn [asked_media means_media]. refine (conj eq_refl (conj eq_refl (conj eq_refl _))). intros i p Hi Hp. pose proof (Entry_Proofs.inside_length _ p Hp) as L. destruct p as [|p0 [|p1 [|p2 [|]]]]; try discriminate L. destruct i as [|[|i]]; [reflexivity|reflexivity|cbn in Hi; lia].
  - cbn [asked_media means_media]. exists [fun _ => RtoC 4; fun _ => RtoC 1]. split.
    + constructor; [intros p Hp; reflexivity|]. constructor; [|constructor]. split; [reflexivity|]. intros p Hp. unfold place. cbn [map nth Nat.eqb orb]. unfold offset. cbn. f_equal. lra.
    + constructor; [|constructor; [|constructor]]; intros p Hp; split; cbn; try (left; lra); rewrite <- RtoC_mult; f_equal; lra.
Qed.
(** a cube with a plane wave along its last axis, and an array of two layers. *)
Definition cube : grid RN :=
  Build_grid RN 3 (fun _ => 2%Z) (Build_vec RN DFlt (fun _ => 1%R)) (Build_vec RN DFlt (fun _ => 0%R)) (fun _ => false) (fun _ => true) (fun _ => true) true false.
Definition cube_beam : beam_args :=
  {| l_grid := cube; l_axis := Some (-1)%Z; l_wavenumber := RtoC 1; l_wavelength := None; l_permittivity := RtoC 1; l_index := None;
     l_field := Some (FFunction 2 (fun _ => RtoC 1)); l_spectrum := None |}.
Example cube_ok : let crd := fun _ : nat => [(-1)%R; 0%R] in
  let A := Arr [2; 2; 2]%nat (fun p => nth (nth 2 p 0%nat) [RtoC 1; RtoC 2] 0) in let B := Arr [2; 2; 2]%nat (fun p => nth (nth 0 p 0%nat) [RtoC 1; RtoC 2] 0) in
  plain cube /\ (forall i, (i < ndim RN cube)%nat -> coordinates cube i = Ok (crd i)) /\ asked_axis cube (l_axis cube_beam) 2 /\ asked_background cube_beam 1 /\ asked_k cube_beam 1 1 /\
  asked_spectrum cube 2 crd cube_beam 1 (fun _ => amplitudes cube 2 crd (fun _ => RtoC 1)) /\ ordered_axis cube 2 [(-1)%R; 0%R] /\
  layered_last cube [RtoC 1; RtoC 2] A /\ layered_first cube [RtoC 1; RtoC 2] B /\ (/ 100000000 + / 100000 * Cmod (RtoC 1) < Cmod (RtoC 2 - RtoC 1)%C)%R.
Proof.
  intros crd A B. refine (conj _ (conj _ (conj _ (conj _ (conj _ (conj _ (conj _ (conj _ (conj _ _))))))))).
  - split; [split; [reflexivity|split; [discriminate|intros i _; cbn; lia]]|]. split; [cbn; lia|]. intros i _. split; [reflexivity|]. split; [reflexivity|]. intros _. unfold step_of. cbn. lra.
  - intros i Hi. rewrite coordinates_range by ((split; [reflexivity|split; [discriminate|intros j _; cbn; lia]]) || exact Hi). f_equal. transitivity [raw_coordinate RN cube i 0; raw_coordinate RN cube i 1]; [reflexivity|].
    rewrite !raw_linear by (cbn; lia). unfold first, step_of. cbn [cube center step shape center_at_index at_ negb andb]. change (2 / 2)%Z with 1%Z. rn. unfold crd. f_equal; [cbn; lra|]. f_equal. cbn; lra.
  - exists 2%nat. cbn. split; [lia|]. split; [reflexivity|]. right. reflexivity.
  - split; [lra|]. cbn. f_equal. lra.
  - split; [lra|]. cbn. f_equal. lra.
  - exists (fun _ _ => RtoC 1). split; [|reflexivity]. split; [lia|]. split; [reflexivity|]. reflexivity.
  - split; [cbn; lia|]. unfold step_of. cbn. split; [lra|]. assert (forall x, (x <= -1 \/ 1 <= x)%R -> resolved x) as Rs by (intros x H; right; destruct H; [rewrite Rabs_left by lra|rewrite Rabs_right by lra]; lra).
    split; [apply Rs; lra|]. split; apply Rs; lra.
  - split; [reflexivity|]. split; reflexivity.
  - split; [reflexivity|]. split; reflexivity.
  - rewrite <- RtoC_minus, !Cmod_R, !Rabs_right by lra. lra.
Qed.
