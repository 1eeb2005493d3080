(** Numbers as a record of operations, so that one model runs on rationals (to execute it) and on reals (to
    prove theorems about it).  Neither rounds; double precision numbers are a third instance, in Float_Model.v. *)
From Coq Require Import ZArith QArith Qcanon Qround Reals Lra Lia Bool.
From Flocq Require Import Core.Raux.

Record num : Type := {
  carrier :> Type;
  nadd : carrier -> carrier -> carrier;
  nsub : carrier -> carrier -> carrier;
  nmul : carrier -> carrier -> carrier;
  ndiv : carrier -> carrier -> carrier;
  nofZ : Z -> carrier;
  nfloor : carrier -> Z;
  neqb : carrier -> carrier -> bool;
  nleb : carrier -> carrier -> bool
}.

Section Derived.
  Variable N : num.
  Implicit Types x y : N.
  Definition nopp x : N := nsub N (nofZ N 0) x.
  Definition nltb x y : bool := nleb N x y && negb (neqb N x y).
  Definition nabs x : N := if nleb N (nofZ N 0) x then x else nopp x.
  (** np.sign *)
  Definition nsign x : N :=
    if neqb N x (nofZ N 0) then nofZ N 0 else if nleb N (nofZ N 0) x then nofZ N 1 else nofZ N (-1).
  Definition nceil x : Z := (- nfloor N (nopp x))%Z.
  (** astype(int): towards zero *)
  Definition ntrunc x : Z := if nleb N (nofZ N 0) x then nfloor N x else nceil x.
  (** np.round: half to even *)
  Definition nround x : Z :=
    let f := nfloor N x in
    let d := nsub N x (nofZ N f) in
    let half := ndiv N (nofZ N 1) (nofZ N 2) in
    if nltb d half then f else if nltb half d then (f + 1)%Z else if Z.even f then f else (f + 1)%Z.
  (** np.mod *)
  Definition nmod x y : N := nsub N x (nmul N y (nofZ N (nfloor N (ndiv N x y)))).
  Definition nmax x y : N := if nleb N x y then y else x.
  Definition nmin x y : N := if nleb N x y then x else y.
End Derived.
Arguments nopp {N}. Arguments nltb {N}. Arguments nabs {N}. Arguments nsign {N}. Arguments nceil {N}.
Arguments ntrunc {N}. Arguments nround {N}. Arguments nmod {N}. Arguments nmax {N}. Arguments nmin {N}.

(** Canonical rationals: executable. *)
Definition QN : num := {|
  carrier := Qc; nadd := Qcplus; nsub := Qcminus; nmul := Qcmult; ndiv := Qcdiv;
  nofZ := fun z => Q2Qc (inject_Z z);
  nfloor := fun x => Qfloor (this x);
  neqb := fun x y => Qeq_bool x y;
  nleb := fun x y => Qle_bool x y
|}.

(** Reals. *)
Definition RN : num := {|
  carrier := R; nadd := Rplus; nsub := Rminus; nmul := Rmult; ndiv := Rdiv;
  nofZ := IZR; nfloor := Zfloor;
  neqb := fun x y => if Req_EM_T x y then true else false;
  nleb := fun x y => if Rle_dec x y then true else false
|}.

Lemma RN_neqb_true (x y : RN) : neqb RN x y = true <-> x = y.
Proof. cbn. destruct (Req_EM_T x y); split; intros; try discriminate; try contradiction; auto; try (exfalso; auto; fail). Qed.
Lemma RN_neqb_false (x y : RN) : neqb RN x y = false <-> x <> y.
Proof. cbn. destruct (Req_EM_T x y); split; intros; try discriminate; try contradiction; auto; try (exfalso; auto; fail). Qed.
Lemma RN_nleb_true (x y : RN) : nleb RN x y = true <-> (x <= y)%R.
Proof. cbn. destruct (Rle_dec x y); split; intros; try discriminate; try contradiction; auto; try (exfalso; auto; fail). Qed.
Lemma RN_nleb_false (x y : RN) : nleb RN x y = false <-> (y < x)%R.
Proof. cbn. destruct (Rle_dec x y); split; intros; try discriminate; try lra; auto. Qed.
Lemma RN_nltb_true (x y : RN) : nltb x y = true <-> (x < y)%R.
Proof.
  unfold nltb. rewrite andb_true_iff, negb_true_iff, RN_nleb_true, RN_neqb_false. split.
  - intros [H1 H2]. destruct H1; [assumption|contradiction].
  - intros H. split; [lra|]. intros ->. lra.
Qed.
Lemma RN_nltb_false (x y : RN) : nltb x y = false <-> (y <= x)%R.
Proof.
  destruct (nltb x y) eqn:E.
  - apply RN_nltb_true in E. split; [discriminate|intros; lra].
  - split; [|reflexivity]. intros _. destruct (Rle_dec y x); [assumption|].
    exfalso. assert (x < y)%R as H2 by lra. apply RN_nltb_true in H2. congruence.
Qed.
Lemma RN_nopp (x : RN) : nopp x = (- x)%R.
Proof. unfold nopp. cbn. lra. Qed.
Lemma RN_nabs (x : RN) : nabs x = Rabs x.
Proof.
  unfold nabs. rewrite RN_nopp. destruct (nleb RN (nofZ RN 0) x) eqn:E.
  - apply RN_nleb_true in E. cbn in E. rewrite Rabs_pos_eq; auto.
  - apply RN_nleb_false in E. cbn in E. rewrite Rabs_left; auto.
Qed.
Lemma RN_nceil (x : RN) : nceil x = Zceil x.
Proof. unfold nceil, Zceil. rewrite RN_nopp. reflexivity. Qed.
Lemma RN_ntrunc (x : RN) : ntrunc x = Ztrunc x.
Proof.
  unfold ntrunc. rewrite RN_nceil. destruct (nleb RN (nofZ RN 0) x) eqn:E.
  - apply RN_nleb_true in E. cbn in E. rewrite Ztrunc_floor; auto.
  - apply RN_nleb_false in E. cbn in E. rewrite Ztrunc_ceil; auto. lra.
Qed.
(** Show the real operations behind [RN]. *)
Ltac rn := cbn [nadd nsub nmul ndiv nofZ nfloor carrier RN] in *;
  change (@eq (carrier RN)) with (@eq R) in *;
  try match goal with |- @eq (carrier RN) ?a ?b => change (@eq R a b) end.
Ltac rring := rn; (ring || (symmetry; ring)).
