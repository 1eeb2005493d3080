(** C26 and C27. Vector calculus and projections on periodic grids of one, two and three dimensions. *)
From Coq Require Import Reals Lra Lia List Arith.
From Verif Require Import Base Num.
From Verif Require Grid_Model Grid_Spec.
From Verif Require Import Cplx CSum Field Fourier_Model Fourier_Spec Vec_Model Vec_Spec Vec_Proofs Vec_Grid.
Import ListNotations.
Local Open Scope R_scope.
Local Open Scope C_scope.

(** The wave numbers are the coordinates of grid.k for any grid with non-zero steps. *)
Theorem wavevectors_of_grid : forall g : Grid_Model.grid RN,
  Grid_Spec.regular g -> (forall i, (i < Grid_Model.ndim RN g)%nat -> Grid_Spec.step_of g i <> 0%R) ->
  proper (raster_of g) /\
  exists k, Grid_Model.k_grid RN PI g = Ok k /\
    forall i, (i < Grid_Model.ndim RN g)%nat -> exists l, Grid_Spec.coordinates k i = Ok l /\ length l = Grid_Spec.points g i /\
      forall p, (nth i p 0 < Grid_Spec.points g i)%nat -> nth (nth i p 0%nat) l 0%R = kvec (raster_of g) i p.
Proof. intros g Hg Hs. split; [exact (raster_of_proper g Hg Hs)|exact (kvec_of_grid g Hg Hs)]. Qed.
Print Assumptions wavevectors_of_grid.

(** ** C26 *)
(** The curl and divergence of the plane wave a exp(i k.x) are i k x a exp(i k.x) and i k.a exp(i k.x). *)
Theorem curl_of_plane_wave : forall (g : raster) (a : nat -> C) (m : list nat), proper g -> (rndim g <= 3)%nat -> inside (rshape g) m ->
  vagree 3 (rshape g) (curl g 3 (fun c p => a c * plane_wave g m p))
    (fun c p => Ci * cross3 (fun i => RtoC (wavevector g m i)) a c * plane_wave g m p).
Proof. exact curl_plane_wave. Qed.
Print Assumptions curl_of_plane_wave.
Theorem div_of_plane_wave : forall (g : raster) (n : nat) (a : nat -> C) (m : list nat), proper g -> (rndim g <= n)%nat -> inside (rshape g) m ->
  exists d, div g n (fun c p => a c * plane_wave g m p) = Ok d /\
    agree (rshape g) d (fun p => Ci * csum n (fun i => RtoC (wavevector g m i) * a i) * plane_wave g m p).
Proof. exact div_plane_wave. Qed.
Print Assumptions div_of_plane_wave.
Theorem div_of_curl : forall (g : raster) (F : vfield), proper g -> (rndim g <= 3)%nat ->
  exists d, div g 3 (curl g 3 F) = Ok d /\ agree (rshape g) d (fun _ => 0).
Proof. exact div_curl. Qed.
Print Assumptions div_of_curl.
Theorem curl_of_longitudinal : forall (g : raster) (F : vfield), proper g -> (rndim g <= 3)%nat ->
  vagree 3 (rshape g) (curl g 3 (longitudinal g F)) (fun _ _ => 0).
Proof. exact curl_longitudinal. Qed.
Print Assumptions curl_of_longitudinal.
(** curl curl is the filter |k|^2 applied to the transversal part. *)
Theorem curl_of_curl : forall (g : raster) (F : vfield), proper g -> (rndim g <= 3)%nat ->
  vagree 3 (rshape g) (curl g 3 (curl g 3 F)) (convolve (rshape g) (fun F c k => RtoC (k2 g k) * F c k) (transversal g F)).
Proof. exact curl_curl. Qed.
Print Assumptions curl_of_curl.
Theorem cross_is_cross_product : forall (A B : vfield) (c : nat) (p : list nat), (c < 3)%nat ->
  cross 3 A B c p = cross3 (fun i => A i p) (fun i => B i p) c.
Proof. exact cross_cross3. Qed.
Print Assumptions cross_is_cross_product.
Theorem cross_antisymmetric : forall (A B : vfield) (c : nat) (p : list nat), cross 3 A B c p = - cross 3 B A c p.
Proof. intros A B c p. exact (cross_antisym A B c p 3). Qed.
Print Assumptions cross_antisymmetric.
Theorem cross_is_orthogonal : forall (A B : vfield) (p : list nat),
  csum 3 (fun c => A c p * cross 3 A B c p) = 0 /\ csum 3 (fun c => B c p * cross 3 A B c p) = 0.
Proof. exact cross_orthogonal. Qed.
Print Assumptions cross_is_orthogonal.

(** ** C27 *)
Theorem projections_complementary : forall (g : raster) (F : vfield) (n : nat),
  vagree n (rshape g) (fun c p => longitudinal g F c p + transversal g F c p) F.
Proof. exact longitudinal_plus_transversal. Qed.
Print Assumptions projections_complementary.
Theorem projections_idempotent : forall (g : raster) (F : vfield) (n : nat), proper g -> (rndim g <= n)%nat ->
  vagree n (rshape g) (longitudinal g (longitudinal g F)) (longitudinal g F) /\
  vagree n (rshape g) (transversal g (transversal g F)) (transversal g F) /\
  vagree n (rshape g) (longitudinal g (transversal g F)) (fun _ _ => 0) /\
  vagree n (rshape g) (transversal g (longitudinal g F)) (fun _ _ => 0).
Proof.
  intros g F n Hg Hn.
  exact (conj (longitudinal_idempotent g F n Hg Hn) (conj (transversal_idempotent g F n Hg Hn) (longitudinal_of_transversal g F n Hg Hn))).
Qed.
Print Assumptions projections_idempotent.
Theorem projections_orthogonal : forall (g : raster) (F G : vfield) (n : nat), proper g -> (rndim g <= n)%nat ->
  vip n (rshape g) (longitudinal g F) (transversal g G) = 0 /\
  vnorm2 n (rshape g) F = (vnorm2 n (rshape g) (longitudinal g F) + vnorm2 n (rshape g) (transversal g F))%R.
Proof. intros g F G n Hg Hn. exact (conj (longitudinal_transversal_orthogonal g F G n Hg Hn) (pythagoras g F n Hg Hn)). Qed.
Print Assumptions projections_orthogonal.
Theorem transversal_is_divergence_free : forall (g : raster) (F : vfield) (n : nat), proper g -> (rndim g <= n)%nat ->
  exists d, div g n (transversal g F) = Ok d /\ agree (rshape g) d (fun _ => 0).
Proof. exact div_transversal. Qed.
Print Assumptions transversal_is_divergence_free.
Theorem uniform_field_is_longitudinal : forall (g : raster) (n : nat) (a : nat -> C), proper g -> (rndim g <= n)%nat ->
  vagree n (rshape g) (longitudinal g (fun c _ => a c)) (fun c _ => if Nat.ltb c (rndim g) then a c else 0).
Proof. exact longitudinal_uniform. Qed.
Print Assumptions uniform_field_is_longitudinal.

(** A 4 x 3 grid meets the hypotheses; wave number (1, 2) has two non-zero components of opposite sign. *)
Example raster_ex : let g := {| rshape := [4; 3]%nat; rstep := [1; 1/2]%R |} in
  proper g /\ (rndim g <= 3)%nat /\ inside (rshape g) [1; 2]%nat /\ (0 < wavevector g [1; 2]%nat 0 /\ wavevector g [1; 2]%nat 1 < 0)%R /\
  wavevector g [1; 2]%nat 2 = 0%R.
Proof.
  cbn. split; [|split; [unfold rndim; cbn; lia|split; [repeat constructor|]]].
  - repeat split; cbn; repeat constructor; lra.
  - pose proof PI_RGT_0. unfold wavevector, rndim. cbn. unfold kvec, k_axis. cbn. repeat split; try lra.
Qed.
