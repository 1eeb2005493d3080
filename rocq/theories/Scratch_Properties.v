(** Theorems about work arrays and uninitialised memory (C181). *)
From Coq Require Import Reals List Arith ZArith Bool Lia Lra.
Require Import Verif.Base Verif.Cplx Verif.CSum Verif.Field Verif.Fourier_Model Verif.Vec_Model Verif.Vec_Spec Verif.Scratch_Model
  Verif.Scratch_Proofs.
Import ListNotations.
Local Open Scope R_scope.
Local Open Scope C_scope.

(** C181. The curl, of a field with any number of components, has nothing of what was in the memory before. *)
Theorem scratch_curl : forall (g : raster) (vl nf : nat) (junk F : vfield) (c : nat) (p : list nat), (c < vl)%nat ->
  curl_run g vl nf junk F c p = curl_ft g vl nf F c p.
Proof. exact curl_run_ok. Qed.
Print Assumptions scratch_curl.

(** Nor has the divergence. *)
Theorem scratch_div : forall (g : raster) (nf : nat) (junk : sfield) (F : vfield), (rndim g <= nf)%nat ->
  exists r r', div_run g nf junk F = Ok r /\ div_ft g nf F = Ok r' /\ forall p, r p = r' p.
Proof. exact div_run_ok. Qed.
Print Assumptions scratch_div.

(** The projection does not depend on what earlier calculations left in its two work arrays, even when its argument is one
    of them ([r = F]) with numpy. *)
Theorem scratch_projection_partial : forall (g : raster) (vl nf : nat) (F : vfield) (w : sfield) (r : vfield),
  (1 <= rndim g <= nf)%nat -> (nf <= vl)%nat ->
  exists r' w', project_run g vl nf false F w r = Ok (r', w') /\
    forall c p, (c < nf)%nat -> r' c p = longitudinal_ft g F c p.
Proof. exact project_run_ok. Qed.
Print Assumptions scratch_projection_partial.

(** With PyTorch, the projection of the work array itself loses its uniform part. *)
Theorem scratch_projection_refuted : forall (g : raster) (vl nf : nat) (F : vfield) (w : sfield) (p : list nat),
  proper g -> inside (rshape g) p -> (1 <= rndim g <= nf)%nat -> (nf <= vl)%nat -> is_origin p = true ->
  exists r' w', project_run g vl nf true F w F = Ok (r', w') /\ forall c, (c < rndim g)%nat ->
    r' c p = 0 /\ longitudinal_ft g F c p = F c p.
Proof.
  intros g vl nf F w p Pg Pp H V O. destruct (project_late g vl nf F w p Pg Pp H V O) as (r' & w' & E & K).
  exists r', w'. split; [exact E|]. intros c Hc. split; [exact (K c Hc)|].
  unfold longitudinal_ft. rewrite O. apply Nat.ltb_lt in Hc. rewrite Hc. reflexivity.
Qed.
Print Assumptions scratch_projection_refuted.

(** The cross product of fields with as many components has nothing of what was in memory. *)
Theorem scratch_cross_partial : forall (na nb : nat) (junk A B : vfield) (c : nat) (p : list nat), (na <= nb)%nat -> (c < na)%nat ->
  cross_run na nb junk A B c p = cross na A B c p.
Proof. exact cross_run_ok. Qed.
Print Assumptions scratch_cross_partial.

(** That with a field of two components starts from whatever was there. *)
Theorem scratch_cross_refuted : forall (A B : vfield) (p : list nat) (z : C),
  exists junk, cross_run 3 2 junk A B 0%nat p = z.
Proof.
  intros A B p z. exists (fun _ p => z + A 2%nat p * B 1%nat p). rewrite cross_run_junk. ring.
Qed.
Print Assumptions scratch_cross_refuted.

(** Projections of fields that fit the grid succeed after a first one of the shape of the grid. *)
Theorem scratch_shapes_partial : forall (grid : list nat) (fields : list (list nat)), fields <> [] -> hd [] fields = grid ->
  Forall (fun f => copies f grid = true) fields ->
  Forall (fun r => r = Ok tt) (project_calls grid None fields).
Proof. exact full_history_lemma. Qed.
Print Assumptions scratch_shapes_partial.

(** When the first field has a single point along an axis with more, that call and all later ones fail. *)
Theorem scratch_shapes_refuted : forall (grid field : list nat) (fields : list (list nat)) (i : nat),
  (i < length grid)%nat -> (1 < nth i grid 1)%nat -> nth i field 1%nat = 1%nat ->
  Forall (fun r => r = Err ValueError) (project_calls grid None (field :: fields)).
Proof. exact short_history_lemma. Qed.
Print Assumptions scratch_shapes_refuted.
(** The same two fields in both orders. *)
Example scratch_hypotheses :
  project_calls [4; 3]%nat None [[4; 3]; [1; 1]; [4; 3]]%nat = [Ok tt; Ok tt; Ok tt] /\
  project_calls [4; 3]%nat None [[1; 1]; [4; 3]; [4; 3]]%nat = [Err ValueError; Err ValueError; Err ValueError] /\
  proper {| rshape := [4; 3]%nat; rstep := [1; 1]%R |} /\ inside [4; 3]%nat [0; 0]%nat /\ is_origin [0; 0]%nat = true.
Proof.
  refine (conj eq_refl (conj eq_refl (conj _ (conj _ eq_refl)))).
  - unfold proper. cbn [rshape rstep length]. split; [reflexivity|]. split; repeat constructor; try lia; lra.
  - repeat constructor.
Qed.
