(** Witnesses of grid constructor calls that do not do what is documented.  Executed on rationals. *)
From Coq Require Import QArith Qcanon Reals.
From Verif Require Import Base Num Grid_Model Grid_Spec Grid_Proofs Grid_Rebuild Grid_Ops Grid_Tests.
Local Open Scope Z_scope.

Lemma witness {A} (r : result A) (P : A -> bool) :
  match r with Ok g => P g | Err _ => false end = true -> exists g, r = Ok g /\ P g = true.
Proof. destruct r as [g|]; [intro H; exists g; auto|discriminate]. Qed.
Lemma qc_eqb (x : carrier QN) y : Qeq_bool (this x) y && (Qnum (this x) =? Qnum y) && (Z.pos (Qden (this x)) =? Z.pos (Qden y)) = true -> this x = y.
Proof. destruct (this x) as [a b], y as [c d]; cbn. intros H. apply andb_prop in H as [H H2]. apply andb_prop in H as [_ H1].
  apply Z.eqb_eq in H1. apply Pos.eqb_eq in H2. now subst. Qed.

(** Grid(4, 1, center=0, last=100) *)
Definition ignored_last : args QN := G (Some (z 4)) (Some (z 1)) None None (Some (z 0)) (Some (z 100)) false true.
Lemma last_ignored :
  exists g, construct QN ignored_last = Ok g /\
    neqb QN (nmul QN (nofZ QN (shape QN g 0)) (at_ QN (step QN g) 0%nat)) (nsub QN (nofZ QN 100) (first QN g 0)) = false.
Proof.
  destruct (witness (construct QN ignored_last) (fun g => negb (neqb QN (nmul QN (nofZ QN (shape QN g 0)) (at_ QN (step QN g) 0%nat)) (nsub QN (nofZ QN 100) (first QN g 0))))) as (g & E & H).
  - vm_compute. reflexivity.
  - exists g. split; [exact E|]. now apply negb_true_iff in H.
Qed.

(** Grid(4, center=0, last=2000001): the step 1000000.5 is truncated *)
Definition truncated_step : args QN := G (Some (z 4)) None None None (Some (z 0)) (Some (z 2000001)) false true.
Lemma step_truncated :
  exists g, construct QN truncated_step = Ok g /\ this (at_ QN (step QN g) 0%nat) = inject_Z 1000000 /\
    neqb QN (nmul QN (nofZ QN (shape QN g 0)) (at_ QN (step QN g) 0%nat)) (nsub QN (nofZ QN 2000001) (first QN g 0)) = false.
Proof.
  destruct (witness (construct QN truncated_step) (fun g =>
     (let x := this (at_ QN (step QN g) 0%nat) in let y := inject_Z 1000000 in Qeq_bool x y && (Qnum x =? Qnum y) && (Z.pos (Qden x) =? Z.pos (Qden y))) &&
     negb (neqb QN (nmul QN (nofZ QN (shape QN g 0)) (at_ QN (step QN g) 0%nat)) (nsub QN (nofZ QN 2000001) (first QN g 0))))) as (g & E & H).
  - vm_compute. reflexivity.
  - exists g. apply andb_prop in H as [H1 H2]. split; [exact E|]. split; [apply qc_eqb; exact H1|]. now apply negb_true_iff in H2.
Qed.

(** Grid(2, first=0, last=2000001): a grid with step 1000000.5 exists but the call is refused. *)
Definition refused_range : args QN := G (Some (z 2)) None None (Some (z 0)) None (Some (z 2000001)) false true.
Lemma range_refused : construct QN refused_range = Err ValueError.
Proof. vm_compute. reflexivity. Qed.
(** The same call with a floating point 0.0 is accepted. *)
Lemma range_accepted :
  exists g, construct QN (G (Some (z 2)) None None (Some (q 0)) None (Some (z 2000001)) false true) = Ok g /\
    this (at_ QN (step QN g) 0%nat) = (2000001 # 2)%Q.
Proof.
  destruct (witness (construct QN (G (Some (z 2)) None None (Some (q 0)) None (Some (z 2000001)) false true)) (fun g =>
     (let x := this (at_ QN (step QN g) 0%nat) in let y := (2000001 # 2)%Q in Qeq_bool x y && (Qnum x =? Qnum y) && (Z.pos (Qden x) =? Z.pos (Qden y))))) as (g & E & H).
  - vm_compute. reflexivity.
  - exists g. split; [exact E|]. apply qc_eqb; exact H.
Qed.

(** Grid(step=1, center=0, last=2, include_last=True, center_at_index=False) ends at 3/2 instead of 2. *)
Definition half_index : args QN := G None (Some (z 1)) None None (Some (z 0)) (Some (z 2)) true false.
Lemma half_index_wrong : C half_index = Ok [-3#2; -1#2; 1#2; 3#2]%Q.
Proof. vm_compute. reflexivity. Qed.

(** Grid(step=1, first=0) and Grid(step=1, last=4) *)
Lemma step_first_refused : construct QN (G None (Some (z 1)) None (Some (z 0)) None None false true) = Err ValueError.
Proof. vm_compute. reflexivity. Qed.

(** Grid([1, 4], first=[0, 0], last=[0, 3], include_last=True): returned, but axis 1 cannot be read. *)
Definition short : args QN := G (Some (zs [1; 4])) None None (Some (zs [0; 0])) None (Some (zs [0; 3])) true true.
Lemma short_unreadable :
  exists g, construct QN short = Ok g /\ ndim QN g = 2%nat /\ getitem_axis QN g 1 = Err IndexError.
Proof.
  destruct (witness (construct QN short) (fun g => (ndim QN g =? 2)%nat &&
     match getitem_axis QN g 1 with Err IndexError => true | _ => false end)) as (g & E & H).
  - vm_compute. reflexivity.
  - exists g. apply andb_prop in H as [H1 H2]. apply Nat.eqb_eq in H1. split; [exact E|]. split; [exact H1|].
    clear E H1. destruct (getitem_axis QN g 1) as [|[]]; try discriminate H2; reflexivity.
Qed.
(** Grid([1, 4], first=[0, 0], last=[0, 6], include_last=True): refused, although [0] x [0, 2, 4, 6] is such a grid. *)
Lemma short_refused :
  construct QN (G (Some (zs [1; 4])) None None (Some (zs [0; 0])) None (Some (zs [0; 6])) true true) = Err ValueError.
Proof. vm_compute. reflexivity. Qed.

(** Grid(4, 1, ndim=3) *)
Definition with_ndim : args QN :=
  {| a_shape := Some (z 4); a_step := Some (z 1); a_extent := None; a_first := None; a_center := None; a_last := None;
     a_include_last := BScalar false; a_ndim := Some 3%nat; a_flat := BScalar false; a_origin_at_center := BScalar true;
     a_center_at_index := BScalar true |}.
Lemma ndim_lost :
  exists g h, construct QN with_ndim = Ok g /\ ndim QN g = 3%nat /\ add QN g (OScalar QN DInt (nofZ QN 0)) = Ok h /\ ndim QN h = 1%nat /\
    (exists x, getitem_axis QN g 1 = Ok [x] /\ this x = (-1)%Q).
Proof.
  destruct (witness (construct QN with_ndim) (fun g => (ndim QN g =? 3)%nat &&
     match add QN g (OScalar QN DInt (nofZ QN 0)) with Ok h => (ndim QN h =? 1)%nat | _ => false end &&
     match getitem_axis QN g 1 with Ok [x] => Qeq_bool (this x) (-1) && (Qnum (this x) =? -1) && (Z.pos (Qden (this x)) =? 1) | _ => false end)) as (g & E & H).
  - vm_compute. reflexivity.
  - apply andb_prop in H as [H H3]. apply andb_prop in H as [H1 H2]. apply Nat.eqb_eq in H1.
    destruct (add QN g _) as [h|] eqn:A; [|discriminate H2]. apply Nat.eqb_eq in H2.
    destruct (getitem_axis QN g 1) as [[|x [|]]|] eqn:I; try discriminate H3.
    exists g, h. split; [exact E|]. split; [exact H1|]. split; [exact A|]. split; [exact H2|].
    exists x. split; [exact I|]. apply (qc_eqb x (-1)). exact H3.
Qed.

(** The defaults for step and shape are never applied: without shape, extent and step every call fails. *)
Theorem defaults_fail a :
  a_shape RN a = None -> a_step RN a = None -> a_extent RN a = None -> exists e, construct RN a = Err e.
Proof.
  intros N1 N2 N3. destruct (construct RN a) as [g|e] eqn:H; [|eauto]. exfalso.
  apply construct_inv in H as (vsh&vst&vex&vfi&vce&vla&fl&oac&incl&cai&v&s&st&short&ce&H). cbv zeta in H.
  destruct H as (H1&H2&H3&H4&H5&H6&H7&H8&H9&H10&H11&H12&H13&H14&H15&H16&H17&H18&->).
  rewrite N1 in H1; rewrite N2 in H2; rewrite N3 in H3. injection H1 as <-. injection H2 as <-. injection H3 as <-.
  unfold find_shape in H11. cbn [v_shape v_step v_extent v_first v_center v_last py_step] in H11.
  destruct vla, vfi, vce; crunch; cbn in H18; discriminate.
Qed.

(** A regular grid exists: Grid([3, 4], [0.5, -2], center=[1, 7], origin_at_center=[True, False]) *)
Local Open Scope R_scope.
Definition example_args : args RN :=
  {| a_shape := Some (AVector RN DInt (map IZR [3; 4]%Z)); a_step := Some (AVector RN DFlt [/ 2; -2]);
     a_extent := None; a_first := None; a_center := Some (AVector RN DInt [1; 7]); a_last := None;
     a_include_last := BScalar false; a_ndim := None; a_flat := BScalar false;
     a_origin_at_center := BVector (map (fun b => b) [true; false]); a_center_at_index := BScalar true |}.
Lemma example_grid :
  exists g, construct RN example_args = Ok g /\ regular g /\ ndim RN g = 2%nat /\ multidimensional RN g = true /\
    shape RN g 0 = 3%Z /\ shape RN g 1 = 4%Z /\ step_of g 0 = / 2 /\ step_of g 1 = -2 /\
    center_of g 0 = 1 /\ center_of g 1 = 7 /\ origin_at_center RN g 0 = true /\ origin_at_center RN g 1 = false /\
    center_at_index RN g 0 = true /\ center_at_index RN g 1 = true.
Proof.
  destruct (rebuild 2 true (AVector RN DInt (map IZR [3; 4]%Z)) DInt (fun i => nth i [3;4]%Z 0%Z)
    (AVector RN DFlt [/ 2; -2]) DFlt (fun i => nth i [/2; -2] 0)
    (Some (AVector RN DInt [1; 7])) DInt (fun i => nth i [1; 7] 0) (BScalar false) (fun _ => false)
    (BVector (map (fun b => b) [true; false])) (fun i => nth i [true; false] true) (BScalar true) (fun _ => true) false)
   as (h & E & R & N & M & V & T).
  - apply (arg_is_map DInt IZR [3;4]%Z 2 0%Z eq_refl).
  - intros [|[|i]] Hi; cbn; lia.
  - apply (arg_is_list 2 DFlt [/ 2; -2] eq_refl).
  - apply (arg_is_list 2 DInt [1; 7] eq_refl).
  - apply flag_is_scalar.
  - apply (flag_is_list (fun b => b) [true; false] 2 true eq_refl).
  - apply flag_is_scalar.
  - discriminate.
  - exists h. destruct (V 0%nat) as (?&?&?&?&?&?); [lia|]. destruct (V 1%nat) as (?&?&?&?&?&?); [lia|].
    split; [exact E|]. split; [exact R|]. split; [exact N|]. split; [exact M|]. auto 20.
Qed.
