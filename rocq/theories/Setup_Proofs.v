(** Proofs about the decisions of the constructor. *)
From Coq Require Import Reals Lra List Arith Bool Lia.
Require Import Verif.Base Verif.Setup_Model.
Import ListNotations.
Local Open Scope R_scope.

Lemma frequency_first c w l k : 0 < c -> angular_frequency_of c (choose_wavenumber c (Some w) l k) = w.
Proof. intros Hc. unfold angular_frequency_of, choose_wavenumber. field. lra. Qed.
Lemma wavelength_second c l k : 0 < l -> wavelength_of (choose_wavenumber c None (Some l) k) = l.
Proof. intros Hl. pose proof PI_RGT_0. unfold wavelength_of, choose_wavenumber. field. split; lra. Qed.
Lemma consistent c w l k : 0 < c -> let k' := choose_wavenumber c w l k in k' <> 0 -> wavelength_of k' * k' = 2 * PI /\ angular_frequency_of c k' * wavelength_of k' = 2 * PI * c.
Proof. intros Hc k' Hk. unfold wavelength_of, angular_frequency_of. split; field; exact Hk. Qed.

Lemma vectorial_none gs dt : fst (setup gs None None None dt) = true.
Proof. reflexivity. Qed.
Lemma vectorial_set gs b j s dt : fst (setup gs (Some b) j s dt) = b.
Proof. unfold setup, choose_source. destruct s; [reflexivity|]. destruct j; reflexivity. Qed.
Lemma vectorial_shape gs s (v : bool) : choose_vectorial gs None s = true <-> exists t, sshape s = 3%nat :: t /\ (length gs <= length t)%nat.
Proof.
  unfold choose_vectorial. rewrite andb_true_iff, Nat.ltb_lt, Nat.eqb_eq. destruct (sshape s) as [|n t]; cbn; [split; [lia|intros (t & H & _); discriminate]|].
  split; [intros [H1 ->]; exists t; split; [reflexivity|lia]|]. intros (t' & H & L). injection H as -> ->. lia.
Qed.
Lemma vectorial_source gs j s dt : fst (setup gs None j (Some s) dt) = true <-> exists t, sshape s = 3%nat :: t /\ (length gs <= length t)%nat.
Proof. cbn. apply vectorial_shape. exact true. Qed.
Lemma vectorial_current gs j dt : fst (setup gs None (Some j) None dt) = true <-> exists t, sshape j = 3%nat :: t /\ (length gs <= length t)%nat.
Proof. cbn [setup choose_source fst]. rewrite vectorial_shape by exact true. reflexivity. Qed.

Lemma dtype_complex gs v j s dt : is_complex (snd (setup gs v j s dt)) = true.
Proof.
  unfold setup. destruct (choose_source gs v j s dt) as [src vec]. cbn [snd]. unfold choose_dtype.
  destruct dt as [d|]; [|generalize (stype src); intros d]; destruct d; reflexivity.
Qed.
Lemma dtype_single gs v j s dt : snd (setup gs v j s dt) = DComplex64 <->
  In match dt, s, j with Some d, _, _ => d | None, Some x, _ => stype x | None, None, Some x => stype x | None, None, None => DComplex128 end [DComplex64; DFloat16; DFloat32].
Proof.
  unfold setup, choose_source. destruct s as [s|]; [|destruct j as [j|]]; destruct dt as [d|]; cbn [snd choose_dtype stype].
  1,3,5: destruct d; cbn; intuition congruence.
  - unfold choose_dtype. destruct (stype s); cbn; intuition congruence.
  - unfold choose_dtype. cbn [stype]. destruct (stype j); cbn; intuition congruence.
  - cbn. intuition congruence.
Qed.
Lemma dtype_given gs v j s d : is_complex d = true -> snd (setup gs v j s (Some d)) = d.
Proof. intros H. unfold setup. destruct (choose_source gs v j s (Some d)). cbn [snd]. unfold choose_dtype. rewrite H. reflexivity. Qed.
Lemma dtype_long gs : snd (setup gs None None (Some {| sshape := gs; stype := DCLongDouble |}) None) = DCLongDouble.
Proof. reflexivity. Qed.
