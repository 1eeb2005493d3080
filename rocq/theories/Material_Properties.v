(** The material properties of a Solution: C105, C106, C107, C108. *)
From Coq Require Import Reals Lra Lia List Arith Bool.
Require Import Verif.Base Verif.Cplx Verif.CSum Verif.Field Verif.Fourier_Model Verif.Fourier_Spec Verif.Fourier_Proofs Verif.Display_Model.
Require Import Verif.Vec_Model Verif.Vec_Spec Verif.Vec_Proofs Verif.Solver_Model Verif.Solver_Spec Verif.Solver_Proofs Verif.Choice_Model.
Require Import Verif.Array_Model Verif.Array_Spec Verif.Material_Model Verif.Material_Spec Verif.Material_Proofs Verif.Material_Waves Verif.Material_More.
Import ListNotations.
Local Open Scope R_scope.
Local Open Scope C_scope.

(** ** C105 *)
(** A permittivity and a permeability, given as numbers, as arrays that broadcast to the grid, or as fields of 3x3 matrices, are used as they
    are, whatever refractive index is also given. *)
Theorem materials_read : forall gs e te index mu tmu, given gs e te -> given gs mu tmu ->
  exists e' mu', read_materials 3 (length gs) (Some e) index mu {| b_electric := None; b_magnetic := None |} = Ok (e', mu') /\ represents gs e' te /\ represents gs mu' tmu.
Proof. exact read_plain. Qed.
Print Assumptions materials_read.

(** The susceptibility of the boundary is added to isotropic permittivities, and to the diagonal of anisotropic permittivities. *)
Theorem materials_read_bound : forall gs e te index mu tmu b chi, given gs e te -> given gs mu tmu -> susceptibility gs b chi ->
  exists e' mu', read_materials 3 (length gs) (Some e) index mu {| b_electric := Some b; b_magnetic := None |} = Ok (e', mu') /\
    represents gs e' (plus_isotropic te chi) /\ represents gs mu' tmu.
Proof. exact read_bound. Qed.
Print Assumptions materials_read_bound.
Theorem materials_read_scalar : forall gs e f index mu h b chi, given gs e (TScalar f) -> given gs mu (TScalar h) -> susceptibility gs b chi ->
  exists e' mu', read_materials 1 (length gs) (Some e) index mu {| b_electric := Some b; b_magnetic := None |} = Ok (e', mu') /\
    represents gs e' (TScalar (fun p => f p + chi p)) /\ represents gs mu' (TScalar h).
Proof. exact read_scalar. Qed.
Print Assumptions materials_read_scalar.

(** A refractive index gives its square as permittivity; where an isotropic index has a negative real part, the signs of both the permittivity
    and the permeability are changed.  Without index and permittivity there is vacuum. *)
Theorem index_squared : forall gs n tn mu tmu, given gs n tn -> given gs mu tmu ->
  exists e' mu' te tmu', read_materials 3 (length gs) None (Some n) mu {| b_electric := None; b_magnetic := None |} = Ok (e', mu') /\
    represents gs e' te /\ represents gs mu' tmu' /\ negated_where (negative_index tn) (square tn) te /\ negated_where (negative_index tn) tmu tmu'.
Proof. exact read_index. Qed.
Print Assumptions index_squared.
Theorem vacuum_by_default : forall gs mu tmu, given gs mu tmu ->
  exists e' mu', read_materials 3 (length gs) None None mu {| b_electric := None; b_magnetic := None |} = Ok (e', mu') /\ represents gs e' (TScalar (fun _ => 1)) /\ represents gs mu' tmu.
Proof. exact read_default. Qed.
Print Assumptions vacuum_by_default.

(** A number, a row that is repeated for all columns, and matrices that depend on the first axis only. *)
Example given_forms : given [3; 4]%nat (number 2) (TScalar (fun _ => 2)) /\
  given [3; 4]%nat (of_list [RtoC 1; RtoC 2; RtoC 3; RtoC 4]) (TScalar (fun p => RtoC (INR (nth 1 p 0 + 1)%nat))) /\
  given [3; 4]%nat (Arr [3; 3; 3; 1]%nat (fun p => RtoC (INR (nth 0 p 0 + nth 2 p 0)%nat))) (TMatrix (fun i _ p => RtoC (INR (i + nth 0 p 0)%nat))) /\
  susceptibility [3; 4]%nat (Arr [1; 4]%nat (fun p => RtoC (INR (nth 1 p 0%nat)))) (fun p => RtoC (INR (nth 1 p 0%nat))).
Proof. exact forms_exist. Qed.

(** ** C106 *)
(** The magnetic susceptibility of a boundary is added to the diagonal of permeabilities that are given as matrices, and the electric
    susceptibility to the permittivity only. *)
Theorem magnetic_bound_partial : forall gs e te index mu m b1 chi1 b chi, given gs e te -> given gs mu (TMatrix m) -> susceptibility gs b1 chi1 -> susceptibility gs b chi ->
  exists e' mu', read_materials 3 (length gs) (Some e) index mu {| b_electric := Some b1; b_magnetic := Some b |} = Ok (e', mu') /\
    represents gs e' (plus_isotropic te chi1) /\ represents gs mu' (plus_isotropic (TMatrix m) chi).
Proof. exact read_magnetic. Qed.
Print Assumptions magnetic_bound_partial.
(** It is not for numbers and scalar fields: these are added to all the elements of the matrices, so that the permeability is a singular
    matrix at every point where the boundary does nothing. *)
Theorem magnetic_bound_refuted : forall gs e te index mu f b1 chi1 b chi, given gs e te -> given gs mu (TScalar f) -> susceptibility gs b1 chi1 -> susceptibility gs b chi ->
  exists e' mu' m, read_materials 3 (length gs) (Some e) index mu {| b_electric := Some b1; b_magnetic := Some b |} = Ok (e', mu') /\
    represents gs e' (plus_isotropic te chi1) /\ represents gs mu' (TMatrix m) /\
    (forall i j p, i <> j -> m i j p = f p) /\ forall p, chi p = 0 -> det3 (fun i j => m i j p) = 0.
Proof. exact read_singular. Qed.
Print Assumptions magnetic_bound_refuted.

(** ** C107 *)
(** Materials with a negative refractive index and no gain are materials without gain for the solver. *)
Theorem negative_index_passive_partial : forall gs n f mu m, given gs n (TScalar f) -> given gs mu (TScalar (fun _ => RtoC m)) ->
  (forall p, inside gs p -> (0 <= snd (f p))%R) ->
  exists e' mu' te tmu', read_materials 3 (length gs) None (Some n) mu {| b_electric := None; b_magnetic := None |} = Ok (e', mu') /\
    represents gs e' te /\ represents gs mu' tmu' /\ absorbs 3 gs te 0 /\ absorbs 3 gs tmu' 0.
Proof. exact index_passive. Qed.
Print Assumptions negative_index_passive_partial.

(** But the iteration does not converge when the index is negative everywhere: a wave of the medium's own wavelength grows by a constant factor
    in every iteration, whatever constants are chosen, while there is no warning and no source. *)
Theorem negative_index_diverges_refuted : forall eps v g k0 n settled kappa m a, (0 < eps)%R -> (2 * eps <= 1)%R -> solvable v g k0 ->
  (fst n < 0)%R -> (0 < snd n < - fst n)%R -> inside (rshape g) m -> k2 g m = (k0 * k0 * (fst n * fst n - snd n * snd n))%R ->
  (v = true -> csum (rndim g) (fun i => RtoC (kvec g i m) * a i) = 0) ->
  let epsilon := tuniform (- (n * n)) in let mu := tuniform (- (1)) in
  let o := construct eps g k0 v epsilon tzero tzero mu settled kappa (fun _ _ => 0) in
  let wave := fun c p => a c * plane_wave g m p in let k := (if v then 3 else 1)%nat in
  warns eps (rshape g) epsilon tzero tzero mu = false /\
  exists q, (1 < q)%R /\ forall i, vnorm2 k (rshape g) (Nat.iter i (next_field o) wave) = (q ^ i * vnorm2 k (rshape g) wave)%R.
Proof.
  intros eps v g k0 n settled kappa m a He H1 Hs Hre Him Hm Hk Ht epsilon mu o wave k.
  exact (conj (negative_unwarned eps g n He H1 Hre Him) (ng_grows eps v g k0 n settled kappa m a He H1 Hs Hre Him Hm Hk Ht)).
Qed.
Print Assumptions negative_index_diverges_refuted.
Example negative_index_hypotheses : solvable true four 1 /\ inside (rshape four) [1%nat] /\ k2 four [1%nat] = (1 * 1 * (fst (-5 / 4, 3 / 4) * fst (-5 / 4, 3 / 4) - snd (-5 / 4, 3 / 4) * snd (-5 / 4, 3 / 4)))%R /\
  csum (rndim four) (fun i => RtoC (kvec four i [1%nat]) * (fun c => if Nat.eqb c 1 then 1 else 0) i) = 0.
Proof. exact four_resonates. Qed.

(** ** C108 *)
(** The solver solves the wave equation for uniform permeabilities that are real. *)
Theorem uniform_permeability_partial : forall eps v g k0 epsilon m settled kappa S F, (0 < eps)%R -> (2 * eps <= 1)%R -> solvable v g k0 -> fits v epsilon ->
  let n := (if v then 3 else 1)%nat in absorbs n (rshape g) epsilon 0 -> (0 < m)%R -> (800 * sqrt eps * (m * m) < 1)%R ->
  let o := construct eps g k0 v epsilon tzero tzero (tuniform (RtoC m)) settled kappa S in
  vagree n (rshape g) (update o F) (fun _ _ => 0) <-> wave_equation_in (RtoC m) v g k0 epsilon (electric_field k0 F) S.
Proof. exact real_permeability. Qed.
Print Assumptions uniform_permeability_partial.
(** For complex permeabilities the fields at which the iteration stops solve the equation for another, real, permeability. *)
Theorem lossy_permeability_refuted : forall eps v g k0 epsilon mu settled kappa S F, (0 < eps)%R -> (2 * eps <= 1)%R -> solvable v g k0 -> fits v epsilon ->
  let n := (if v then 3 else 1)%nat in absorbs n (rshape g) epsilon 0 -> (0 < fst mu)%R -> (0 < snd mu)%R -> (800 * sqrt eps < fst (1 / mu)%C * fst (1 / mu)%C)%R ->
  let o := construct eps g k0 v epsilon tzero tzero (tuniform mu) settled kappa S in let E := electric_field k0 F in
  vagree n (rshape g) (update o F) (fun _ _ => 0) ->
  wave_equation v g k0 (fst (1 / mu)) epsilon E S /\ (wave_equation_in mu v g k0 epsilon E S -> vagree n (rshape g) (curl_curl_op v g E) (fun _ _ => 0)).
Proof. exact lossy_permeability. Qed.
Print Assumptions lossy_permeability_refuted.
Example lossy_hypotheses : let eps := (1 / 1000 * (1 / 1000) * (1 / 1000 * (1 / 1000)))%R in let mu := (1, 1)%R in
  (0 < eps)%R /\ (2 * eps <= 1)%R /\ solvable false four 1 /\ (800 * sqrt eps < fst (1 / mu)%C * fst (1 / mu)%C)%R /\
  exists S F, vagree 1 (rshape four) (update (construct eps four 1 false (tuniform 1) tzero tzero (tuniform mu) (1, 1)%R None S) F) (fun _ _ => 0) /\
    ~ vagree 1 (rshape four) (curl_curl_op false four (electric_field 1 F)) (fun _ _ => 0).
Proof. exact lossy_exists. Qed.
(** Variations of the permeability of up to one part in 100000 make no difference. *)
Theorem permeability_variation_refuted : forall eps v g k0 epsilon f settled kappa S F, (0 < eps)%R -> (2 * eps <= 1)%R -> fits v epsilon ->
  absorbs (if v then 3 else 1) (rshape g) epsilon 0 -> (forall p, inside (rshape g) p -> (0 <= snd (f p))%R) -> Forall (fun n => 0 < n)%nat (rshape g) ->
  let m := f (map (fun _ => 0%nat) (rshape g)) in
  (forall p, inside (rshape g) p -> (Cmod (f p - m)%C <= 1 / 100000000 + 1 / 100000 * Cmod m)%R) ->
  update (construct eps g k0 v epsilon tzero tzero (TScalar f) settled kappa S) F = update (construct eps g k0 v epsilon tzero tzero (tuniform m) settled kappa S) F.
Proof. exact variation_ignored. Qed.
Print Assumptions permeability_variation_refuted.
