(** Proofs about the material properties that are given to a Solution. *)
From Coq Require Import Reals Lra Lia List Arith Bool.
Require Import Verif.Base Verif.Cplx Verif.CSum Verif.Display_Model Verif.Solver_Model Verif.Choice_Model Verif.Choice_Proofs.
Require Import Verif.Array_Model Verif.Array_Spec Verif.Array_Proofs Verif.Array_Glue Verif.Material_Model Verif.Material_Spec.
Import ListNotations.
Local Open Scope R_scope.
Local Open Scope C_scope.

(** ** Broadcasting *)
Lemma lpad_length n s : (length s <= n)%nat -> length (lpad n s) = n.
Proof. intros H. unfold lpad. rewrite app_length, repeat_length. lia. Qed.
Lemma lpad_more k n s : (length s <= n)%nat -> lpad (k + n) s = repeat 1%nat k ++ lpad n s.
Proof. intros H. unfold lpad. replace (k + n - length s)%nat with (k + (n - length s))%nat by lia. rewrite repeat_app, <- app_assoc. reflexivity. Qed.
Lemma forall2_skipn {A B} (P : A -> B -> Prop) l m k : Forall2 P l m -> Forall2 P (skipn k l) (skipn k m).
Proof. intros H. revert k. induction H as [|x y l m Hx Hl IH]; intros [|k]; cbn; auto using Forall2_cons, Forall2_nil. Qed.
Lemma clip_skipn k s p : skipn k (clip s p) = clip (skipn k s) (skipn k p).
Proof. revert s p. induction k as [|k IH]; intros [|n s] [|i p]; cbn; try reflexivity; [|apply IH]. destruct (skipn k s); reflexivity. Qed.
Lemma skipn_lpad n s : (length s <= n)%nat -> skipn (n - length s) (lpad n s) = s.
Proof. intros H. unfold lpad. apply skip_app. apply repeat_length. Qed.
Lemma spatial_skip t k s : spatial t (repeat 1%nat k ++ s) -> spatial (skipn k t) s.
Proof. intros H. unfold spatial. apply (forall2_skipn _ _ _ k) in H. rewrite skip_app in H by apply repeat_length. exact H. Qed.
Lemma spatial_unskip t k s : (k <= length t)%nat -> spatial (skipn k t) s -> spatial t (repeat 1%nat k ++ s).
Proof.
  revert t. induction k as [|k IH]; intros t Hk H; [exact H|]. destruct t as [|n t]; [cbn in Hk; lia|]. cbn. apply Forall2_cons; [right; reflexivity|]. apply IH; [cbn in Hk; lia|exact H].
Qed.

Lemma skipn_skipn' {A} j k (l : list A) : skipn j (skipn k l) = skipn (k + j) l.
Proof. revert l. induction k as [|k IH]; intros [|x l]; cbn; try reflexivity; [destruct j; reflexivity|apply IH]. Qed.

Lemma abin_broadcast f a b t : broadcasts a t -> broadcasts b t -> exists c, abin f a b = Ok c /\ adim c = Nat.max (adim a) (adim b) /\ broadcasts c t /\
  bshape (ashape a) (ashape b) = Some (ashape c) /\ forall p, length p = length t -> bget c p = f (bget a p) (bget b p).
Proof.
  intros [Ha Sa] [Hb Sb]. unfold adim in *. set (n := Nat.max (length (ashape a)) (length (ashape b))). set (k := (length t - n)%nat).
  assert (Hn : (length (ashape a) <= n)%nat /\ (length (ashape b) <= n)%nat /\ (n <= length t)%nat) by (unfold n; lia). destruct Hn as (Na & Nb & Nt).
  assert (Hk : length t = (k + n)%nat) by (unfold k; lia).
  rewrite Hk in Sa, Sb. rewrite lpad_more in Sa, Sb by assumption. apply spatial_skip in Sa, Sb.
  destruct (bzip_spatial _ _ _ Sa Sb) as (r & Er & Sr & Ra & Rb).
  assert (Es : bshape (ashape a) (ashape b) = Some r) by (unfold bshape; cbv zeta; fold n; exact Er).
  assert (Lr : length r = n) by (rewrite (spatial_length _ _ Sr), skipn_length; lia).
  unfold abin. rewrite Es. eexists. split; [reflexivity|]. cbn [ashape]. split; [exact Lr|]. split; [|split; [reflexivity|]].
  - split; unfold adim; cbn [ashape]; [lia|]. rewrite Hk, lpad_more by lia. rewrite (lpad_same n r Lr). apply spatial_unskip; [lia|exact Sr].
  - intros p Hp. unfold bget at 1. cbn [ashape aget]. unfold adim. cbn [ashape]. rewrite Lr. set (p' := skipn (length p - n) p).
    assert (Lp : length p' = n) by (unfold p'; rewrite skipn_length; lia).
    assert (K : forall x, (length (ashape x) <= n)%nat -> Forall2 (fun y z => y = 1 -> z = 1)%nat r (lpad n (ashape x)) -> bget x (clip r p') = bget x p).
    { intros x Hx Rx. unfold bget, adim. rewrite clip_length by congruence. rewrite Lr. f_equal. rewrite clip_skipn.
      apply (forall2_skipn _ _ _ (n - length (ashape x))) in Rx. rewrite skipn_lpad in Rx by exact Hx. rewrite clip_clip by exact Rx. f_equal.
      unfold p'. rewrite skipn_skipn'. f_equal. lia. }
    rewrite (K a Na Ra), (K b Nb Rb). reflexivity.
Qed.

(** ** The forms of a material property *)
Section Forms.
  Variable gs : list nat.
  Notation nd := (length gs).

  Lemma one_one s : spatial (1%nat :: 1%nat :: gs) s -> exists s', s = 1%nat :: 1%nat :: s' /\ spatial gs s'.
  Proof.
    intros H. inversion H as [|? d ? s1 Hd H1]; subst. inversion H1 as [|? e ? s2 He H2]; subst. exists s2. split; [|exact H2]. destruct Hd, He; congruence.
  Qed.
  Lemma two_axes m s : spatial (m :: m :: gs) s -> exists d e s', s = d :: e :: s' /\ (d = m \/ d = 1)%nat /\ (e = m \/ e = 1)%nat /\ spatial gs s'.
  Proof.
    intros H. inversion H as [|? d ? s1 Hd H1]; subst. inversion H1 as [|? e ? s2 He H2]; subst. exists d, e, s2. auto.
  Qed.
  Lemma given_rep a t : given gs a t -> represents gs (to_matrix_field nd a) t.
  Proof.
    destruct t as [f|m].
    - intros [[H1 H2] H3]. cbn [length] in H1, H2. destruct (one_one _ H2) as (s & E & Hs).
      destruct (expand_iter (nd + 2 - adim a) a) as [X1 X2].
      assert (Es : ashape (Nat.iter (nd + 2 - adim a) expand0 a) = 1%nat :: 1%nat :: s).
      { rewrite X1. rewrite <- E. unfold lpad, adim. f_equal. f_equal. lia. }
      assert (Et : to_matrix_field nd a = Nat.iter (nd + 2 - adim a) expand0 a) by (unfold to_matrix_field; cbv zeta; rewrite Es; reflexivity).
      cbn [represents]. rewrite Et. exists s. split; [exact Es|]. split; [exact Hs|]. intros p Hp. rewrite <- (H3 p Hp). unfold element. rewrite Es, X2. unfold bget.
      f_equal. rewrite clip_skipn. cbn [length]. rewrite (inside_length _ _ Hp). replace (Datatypes.S (Datatypes.S nd) - adim a)%nat with (nd + 2 - adim a)%nat by lia. f_equal.
      rewrite <- E. replace (Datatypes.S (Datatypes.S nd)) with (nd + 2)%nat by lia. unfold adim. apply skipn_lpad. unfold adim in H1. lia.
    - intros (s & E & Hs & H). cbn [represents]. rewrite (tmf_same nd a 3 3 s E (spatial_length _ _ Hs)) by lia. exists s. auto.
  Qed.
  Lemma susceptibility_broadcasts chi x m : susceptibility gs chi x -> broadcasts chi (m :: m :: gs) /\ forall i j p, inside gs p -> bget chi (i :: j :: p) = x p.
  Proof.
    intros [Hs Hx]. pose proof (spatial_length _ _ Hs) as L. split.
    - split; unfold adim; cbn [length]; [lia|]. unfold lpad. rewrite L. replace (Datatypes.S (Datatypes.S nd) - nd)%nat with 2%nat by lia. cbn. repeat (apply Forall2_cons; [right; reflexivity|]). exact Hs.
    - intros i j p Hp. rewrite <- (Hx p Hp). unfold bget, element, adim. cbn [length]. rewrite L, (inside_length _ _ Hp). replace (Datatypes.S (Datatypes.S nd) - nd)%nat with 2%nat by lia. reflexivity.
  Qed.
  Lemma matrix_broadcasts a s : ashape a = 3%nat :: 3%nat :: s -> spatial gs s -> broadcasts a (3%nat :: 3%nat :: gs) /\ forall i j p, length p = nd -> bget a (i :: j :: p) = element a (i :: j :: p).
  Proof.
    intros E Hs. pose proof (spatial_length _ _ Hs) as L. split.
    - split; unfold adim; rewrite E; cbn [length]; [lia|]. rewrite lpad_same by (cbn; lia). repeat (apply Forall2_cons; [left; reflexivity|]). exact Hs.
    - intros i j p Hp. apply bget_same. unfold adim. rewrite E. cbn. lia.
  Qed.
  Lemma identity_broadcasts : broadcasts (identity 3 nd) (3%nat :: 3%nat :: gs) /\ forall i j p, (i < 3)%nat -> (j < 3)%nat -> inside gs p -> bget (identity 3 nd) (i :: j :: p) = eye i j.
  Proof.
    assert (E : ashape (identity 3 nd) = 3%nat :: 3%nat :: repeat 1%nat nd) by reflexivity. destruct (matrix_broadcasts _ _ E (ones_spatial gs)) as [B G]. split; [exact B|].
    intros i j p Hi Hj Hp. rewrite G by exact (inside_length _ _ Hp). apply identity_element; [exact (inside_length _ _ Hp)|exact Hi|exact Hj].
  Qed.
  (** The result of an operation with a field of matrices is a field of matrices. *)
  Lemma matrix_shape a b c s : ashape a = 3%nat :: 3%nat :: s -> spatial gs s -> broadcasts b (3%nat :: 3%nat :: gs) -> broadcasts c (3%nat :: 3%nat :: gs) ->
    (bshape (ashape a) (ashape b) = Some (ashape c) \/ bshape (ashape b) (ashape a) = Some (ashape c)) -> adim c = (nd + 2)%nat -> exists r, ashape c = 3%nat :: 3%nat :: r /\ spatial gs r.
  Proof.
    intros Ea Hs [Lb Sb] [Lc Sc] Hb Hc. cbn [length] in *. pose proof (spatial_length _ _ Hs) as L. rewrite lpad_same in Sc by (unfold adim in Hc; lia).
    destruct (two_axes _ _ Sc) as (d & e & r & Ec & Hd & He & Hr). exists r. split; [|exact Hr].
    destruct (two_axes _ _ Sb) as (x & y & s2 & Eb & Hx & Hy & Hs2). unfold adim in Lb.
    assert (Q : forall v w, (v = 3 \/ v = 1)%nat -> (bdim 3 v = Some w \/ bdim v 3 = Some w) -> w = 3%nat).
    { intros v w Hv Hw. unfold bdim in Hw. destruct Hv as [-> | ->]; cbn in Hw; destruct Hw as [Hw|Hw]; injection Hw as <-; reflexivity. }
    unfold bshape in Hb. rewrite Ea in Hb. cbn [length] in Hb. rewrite L in Hb.
    replace (Nat.max (Datatypes.S (Datatypes.S nd)) (length (ashape b))) with (Datatypes.S (Datatypes.S nd)) in Hb by lia.
    replace (Nat.max (length (ashape b)) (Datatypes.S (Datatypes.S nd))) with (Datatypes.S (Datatypes.S nd)) in Hb by lia.
    rewrite (lpad_same _ (3%nat :: 3%nat :: s)) in Hb by (cbn; lia). rewrite Eb, Ec in Hb. cbn [bzip] in Hb.
    destruct Hb as [Hb|Hb].
    - destruct (bdim 3 x) as [d'|] eqn:D1; [|discriminate]. destruct (bdim 3 y) as [e'|] eqn:D2; [|discriminate]. destruct (bzip s s2) as [r'|]; [|discriminate]. injection Hb as -> -> _.
      rewrite Ec, (Q x d Hx (or_introl D1)), (Q y e Hy (or_introl D2)). reflexivity.
    - destruct (bdim x 3) as [d'|] eqn:D1; [|discriminate]. destruct (bdim y 3) as [e'|] eqn:D2; [|discriminate]. destruct (bzip s2 s) as [r'|]; [|discriminate]. injection Hb as -> -> _.
      rewrite Ec, (Q x d Hx (or_intror D1)), (Q y e Hy (or_intror D2)). reflexivity.
  Qed.

  Lemma scalar_axes a : broadcasts a (1%nat :: 1%nat :: gs) -> has_matrix_axes nd a = false.
  Proof.
    intros [L S]. cbn [length] in *. destruct (one_one _ S) as (s & E & Hs). pose proof (spatial_length _ _ Hs) as Ls. unfold has_matrix_axes, adim in *.
    pose proof (skipn_lpad _ (ashape a) L) as K. rewrite E in K. rewrite <- K at 2. set (k := length (ashape a)) in *.
    destruct (Nat.eq_dec k (Datatypes.S (Datatypes.S nd))) as [Hk|Hk].
    - rewrite Hk. rewrite Nat.sub_diag. replace (Datatypes.S (Datatypes.S nd) - nd)%nat with 2%nat by lia. reflexivity.
    - destruct (Nat.eq_dec k (Datatypes.S nd)) as [Hk'|Hk'].
      + rewrite Hk'. replace (Datatypes.S (Datatypes.S nd) - Datatypes.S nd)%nat with 1%nat by lia. replace (Datatypes.S nd - nd)%nat with 1%nat by lia. reflexivity.
      + replace (k - nd)%nat with 0%nat by lia. reflexivity.
  Qed.
  Lemma matrix_axes a s : ashape a = 3%nat :: 3%nat :: s -> spatial gs s -> has_matrix_axes nd a = true.
  Proof.
    intros E Hs. unfold has_matrix_axes, adim. rewrite E. cbn [length]. rewrite (spatial_length _ _ Hs). replace (Datatypes.S (Datatypes.S nd) - nd)%nat with 2%nat by lia. reflexivity.
  Qed.
  Lemma eye_chi chi x : susceptibility gs chi x -> exists c s, abin Cmult (identity 3 nd) chi = Ok c /\ ashape c = 3%nat :: 3%nat :: s /\ spatial gs s /\
    forall i j p, (i < 3)%nat -> (j < 3)%nat -> inside gs p -> element c (i :: j :: p) = eye i j * x p.
  Proof.
    intros Hc. destruct (susceptibility_broadcasts chi x 3 Hc) as [B1 G1]. destruct identity_broadcasts as [B2 G2].
    destruct (abin_broadcast Cmult _ _ _ B2 B1) as (c & E & D & B & S & G). assert (Dc : adim c = (nd + 2)%nat).
    { rewrite D. destruct B1 as [L _]. cbn [length] in L. unfold adim, identity in *. cbn [ashape length]. rewrite repeat_length. lia. }
    destruct (matrix_shape (identity 3 nd) chi c (repeat 1%nat nd) eq_refl (ones_spatial gs) B1 B (or_introl S) Dc) as (r & Er & Hr).
    exists c, r. repeat split; try assumption. intros i j p Hi Hj Hp. rewrite <- (proj2 (matrix_broadcasts c r Er Hr) i j p (inside_length _ _ Hp)).
    rewrite G by (cbn; rewrite (inside_length _ _ Hp); reflexivity). rewrite G2, G1 by assumption. reflexivity.
  Qed.
  Lemma eye_matrix a s : ashape a = 3%nat :: 3%nat :: s -> spatial gs s -> exists c r, abin Cmult (identity 3 nd) a = Ok c /\ ashape c = 3%nat :: 3%nat :: r /\ spatial gs r /\
    forall i j p, (i < 3)%nat -> (j < 3)%nat -> inside gs p -> element c (i :: j :: p) = eye i j * element a (i :: j :: p).
  Proof.
    intros Ea Hs. destruct (matrix_broadcasts a s Ea Hs) as [B1 G1]. destruct identity_broadcasts as [B2 G2].
    destruct (abin_broadcast Cmult _ _ _ B2 B1) as (c & E & D & B & S & G). assert (Dc : adim c = (nd + 2)%nat).
    { rewrite D. destruct B1 as [L _]. cbn [length] in L. unfold adim, identity in *. cbn [ashape length]. rewrite repeat_length. lia. }
    destruct (matrix_shape (identity 3 nd) a c (repeat 1%nat nd) eq_refl (ones_spatial gs) B1 B (or_introl S) Dc) as (r & Er & Hr).
    exists c, r. repeat split; try assumption. intros i j p Hi Hj Hp. pose proof (inside_length _ _ Hp) as Lp. rewrite <- (proj2 (matrix_broadcasts c r Er Hr) i j p Lp).
    rewrite G by (cbn; rewrite Lp; reflexivity). rewrite G2, G1 by assumption. reflexivity.
  Qed.
  Lemma sum_matrices a b s s' (m n : nat -> nat -> list nat -> C) : ashape b = 3%nat :: 3%nat :: s' -> spatial gs s' -> broadcasts a (3%nat :: 3%nat :: gs) ->
    (forall i j p, (i < 3)%nat -> (j < 3)%nat -> inside gs p -> bget a (i :: j :: p) = m i j p) ->
    (forall i j p, (i < 3)%nat -> (j < 3)%nat -> inside gs p -> element b (i :: j :: p) = n i j p) -> s = s' ->
    exists c, abin Cplus a b = Ok c /\ given gs c (TMatrix (fun i j p => m i j p + n i j p)).
  Proof.
    intros Eb Hs B1 Ga Gb ->. destruct (matrix_broadcasts b s' Eb Hs) as [B2 G2]. destruct (abin_broadcast Cplus _ _ _ B1 B2) as (c & E & D & B & S & G).
    assert (Dc : adim c = (nd + 2)%nat).
    { rewrite D. destruct B1 as [L _]. cbn [length] in L. unfold adim in *. rewrite Eb. cbn [length]. rewrite (spatial_length _ _ Hs). lia. }
    destruct (matrix_shape b a c s' Eb Hs B1 B (or_intror S) Dc) as (r & Er & Hr). exists c. split; [exact E|]. exists r. repeat split; try assumption.
    intros i j p Hi Hj Hp. pose proof (inside_length _ _ Hp) as Lp. rewrite <- (proj2 (matrix_broadcasts c r Er Hr) i j p Lp).
    rewrite G by (cbn; rewrite Lp; reflexivity). rewrite G2, Ga, Gb by assumption. reflexivity.
  Qed.

  (** *** Bounds *)
  Lemma plus_eye (z : C) i j p (x : list nat -> C) : z + eye i j * x p = z + (if (i =? j)%nat then x p else 0).
  Proof. unfold eye. destruct (i =? j)%nat; ring. Qed.
  Lemma electric_added nv a chi t x : (nv = 1 /\ (exists f, t = TScalar f) \/ nv = 3)%nat -> given gs a t -> susceptibility gs chi x ->
    exists c, add_electric nv nd a chi = Ok c /\ given gs c (plus_isotropic t x).
  Proof.
    intros Hn Ha Hc. unfold add_electric. destruct t as [f|m].
    - destruct Ha as [B Hf]. rewrite (scalar_axes a B). cbn [bind]. destruct (susceptibility_broadcasts chi x 1 Hc) as [B1 G1].
      destruct (abin_broadcast Cplus _ _ _ B B1) as (c & E & D & Bc & S & G). exists c. split; [exact E|]. split; [exact Bc|]. intros p Hp.
      rewrite G by (cbn; rewrite (inside_length _ _ Hp); reflexivity). rewrite Hf, G1 by exact Hp. reflexivity.
    - destruct Hn as [[_ [f F]]| ->]; [discriminate F|]. destruct Ha as (s & Ea & Hs & Hm). rewrite (matrix_axes a s Ea Hs). destruct (eye_chi chi x Hc) as (c & r & E & Er & Hr & G).
      rewrite E. cbn [bind]. destruct (matrix_broadcasts a s Ea Hs) as [B Ga].
      destruct (sum_matrices a c r r m (fun i j p => eye i j * x p) Er Hr B) as (d & Ed & Gd); [|exact G|reflexivity|].
      { intros i j p Hi Hj Hp. rewrite Ga by exact (inside_length _ _ Hp). apply Hm; assumption. }
      exists d. split; [exact Ed|]. destruct Gd as (q & Eq & Hq & Gd). exists q. repeat split; try assumption. intros i j p Hi Hj Hp. rewrite (Gd i j p Hi Hj Hp). apply plus_eye.
  Qed.
  Lemma magnetic_added a chi m x : given gs a (TMatrix m) -> susceptibility gs chi x ->
    exists c, add_magnetic 3 nd a chi = Ok c /\ given gs c (plus_isotropic (TMatrix m) x).
  Proof.
    intros (s & Ea & Hs & Hm) Hc. unfold add_magnetic. rewrite (matrix_axes a s Ea Hs). destruct (eye_chi chi x Hc) as (c & r & E & Er & Hr & G).
    rewrite E. cbn [bind]. destruct (eye_matrix c r Er Hr) as (c' & r' & E' & Er' & Hr' & G'). rewrite E'. cbn [bind]. destruct (matrix_broadcasts a s Ea Hs) as [B Ga].
    destruct (sum_matrices a c' r' r' m (fun i j p => eye i j * x p) Er' Hr' B) as (d & Ed & Gd).
    - intros i j p Hi Hj Hp. rewrite Ga by exact (inside_length _ _ Hp). apply Hm; assumption.
    - intros i j p Hi Hj Hp. rewrite (G' i j p Hi Hj Hp), (G i j p Hi Hj Hp). unfold eye. destruct (i =? j)%nat; ring.
    - reflexivity.
    - exists d. split; [exact Ed|]. destruct Gd as (q & Eq & Hq & Gd). exists q. repeat split; try assumption. intros i j p Hi Hj Hp. rewrite (Gd i j p Hi Hj Hp). apply plus_eye.
  Qed.
  Lemma scalar_broadcasts a f : given gs a (TScalar f) -> broadcasts a (3%nat :: 3%nat :: gs) /\ forall i j p, inside gs p -> bget a (i :: j :: p) = f p.
  Proof.
    intros [[L S] Hf]. cbn [length] in *. destruct (one_one _ S) as (s & E & Hs). split.
    - split; [exact L|]. cbn [length]. rewrite E. repeat (apply Forall2_cons; [right; reflexivity|]). exact Hs.
    - intros i j p Hp. rewrite <- (Hf p Hp). unfold bget. f_equal.
      assert (Q : forall u, length u = Datatypes.S (Datatypes.S nd) -> clip (ashape a) (skipn (length u - adim a) u) = skipn (Datatypes.S (Datatypes.S nd) - adim a) (clip (1%nat :: 1%nat :: s) u)).
      { intros u Lu. rewrite clip_skipn, <- E. unfold adim in *. rewrite skipn_lpad by exact L. rewrite Lu. reflexivity. }
      rewrite !Q by (cbn; rewrite (inside_length _ _ Hp); reflexivity). reflexivity.
  Qed.
  Lemma magnetic_spread a chi f x : given gs a (TScalar f) -> susceptibility gs chi x ->
    exists c, add_magnetic 3 nd a chi = Ok c /\ given gs c (TMatrix (fun i j p => f p + (if (i =? j)%nat then x p else 0))).
  Proof.
    intros Ha Hc. unfold add_magnetic. rewrite (scalar_axes a (proj1 Ha)). cbn [bind]. destruct (eye_chi chi x Hc) as (c & r & E & Er & Hr & G). rewrite E. cbn [bind].
    destruct (scalar_broadcasts a f Ha) as [B Ga].
    destruct (sum_matrices a c r r (fun _ _ p => f p) (fun i j p => eye i j * x p) Er Hr B) as (d & Ed & Gd); [|exact G|reflexivity|].
    { intros i j p Hi Hj Hp. apply Ga, Hp. }
    exists d. split; [exact Ed|]. destruct Gd as (q & Eq & Hq & Gd). exists q. repeat split; try assumption. intros i j p Hi Hj Hp. rewrite (Gd i j p Hi Hj Hp). apply plus_eye.
  Qed.
  (** *** Refractive index *)
  Lemma inside_clip s p : spatial gs s -> inside gs p -> inside s (clip s p).
  Proof.
    clear. intros H. revert p. induction H as [|n d g s Hd Hs IH]; intros p Hp; inversion Hp as [|? i ? p' Hi Hp']; subst; [constructor|]. cbn. constructor; [|apply IH, Hp'].
    destruct (Nat.eqb_spec d 1) as [->|]; [lia|]. destruct Hd; [lia|contradiction].
  Qed.
  Lemma rep_given a t : represents gs a t -> given gs a t.
  Proof.
    destruct t as [f|m]; [|intros H; exact H]. intros (s & E & Hs & H). pose proof (spatial_length _ _ Hs) as L. split.
    - split; unfold adim; rewrite E; cbn [length]; [lia|]. rewrite lpad_same by (cbn; lia). repeat (apply Forall2_cons; [left; reflexivity|]). exact Hs.
    - intros p Hp. rewrite <- (H p Hp). apply bget_same. unfold adim. rewrite E. cbn. rewrite L. f_equal. f_equal. exact (inside_length _ _ Hp).
  Qed.
  Lemma given_agree a t t' : given gs a t -> (match t, t' with
      | TScalar f, TScalar f' => forall p, inside gs p -> f p = f' p
      | TMatrix m, TMatrix m' => forall i j p, (i < 3)%nat -> (j < 3)%nat -> inside gs p -> m i j p = m' i j p
      | _, _ => False end) -> given gs a t'.
  Proof.
    destruct t as [f|m], t' as [f'|m']; try contradiction; cbn [given].
    - intros [B H] A. split; [exact B|]. intros p Hp. rewrite <- A by exact Hp. auto.
    - intros (s & E & Hs & H) A. exists s. repeat split; try assumption. intros i j p Hi Hj Hp. rewrite <- A by assumption. auto.
  Qed.
  Lemma times_scalar a b t f : given gs a t -> given gs b (TScalar f) -> exists c, abin Cmult a b = Ok c /\
    given gs c (match t with TScalar g => TScalar (fun p => g p * f p) | TMatrix m => TMatrix (fun i j p => m i j p * f p) end).
  Proof.
    intros Ha Hb. destruct t as [g|m].
    - destruct Ha as [Ba Ga], Hb as [Bb Gb]. destruct (abin_broadcast Cmult _ _ _ Ba Bb) as (c & E & D & Bc & S & G). exists c. split; [exact E|]. split; [exact Bc|]. intros p Hp.
      rewrite G by (cbn; rewrite (inside_length _ _ Hp); reflexivity). rewrite Ga, Gb by exact Hp. reflexivity.
    - destruct Ha as (s & Ea & Hs & Ga). destruct (scalar_broadcasts b f Hb) as [Bb Gb]. destruct (matrix_broadcasts a s Ea Hs) as [Ba Ga'].
      destruct (abin_broadcast Cmult _ _ _ Ba Bb) as (c & E & D & Bc & S & G). assert (Dc : adim c = (nd + 2)%nat).
      { rewrite D. destruct Bb as [L _]. cbn [length] in L. unfold adim in *. rewrite Ea. cbn [length]. rewrite (spatial_length _ _ Hs). lia. }
      destruct (matrix_shape a b c s Ea Hs Bb Bc (or_introl S) Dc) as (r & Er & Hr). exists c. split; [exact E|]. exists r. repeat split; try assumption.
      intros i j p Hi Hj Hp. pose proof (inside_length _ _ Hp) as Lp. rewrite <- (proj2 (matrix_broadcasts c r Er Hr) i j p Lp).
      rewrite G by (cbn; rewrite Lp; reflexivity). rewrite Ga', Ga, Gb by assumption. reflexivity.
  Qed.
  (** A property with its sign changed where the index is negative. *)
  Definition flipped (f : list nat -> C) (t : tensor) : tensor :=
    match t with TScalar g => TScalar (fun p => g p * index_sign (f p)) | TMatrix m => TMatrix (fun i j p => m i j p * index_sign (f p)) end.
  Lemma flipped_negated f t : negated_where (negative_index (TScalar f)) t (flipped f t).
  Proof.
    destruct t as [g|m]; cbn; intros; unfold index_sign; destruct (Rlt_dec _ _); split; intros; try contradiction; ring.
  Qed.
  Lemma same_negated m t : negated_where (negative_index (TMatrix m)) t t.
  Proof. destruct t; cbn; intros; split; intros; try contradiction; reflexivity. Qed.
  Lemma index_read n mu t u : given gs n t -> given gs mu u -> exists e mu' te tu, from_index nd n mu = Ok (e, mu') /\ given gs e te /\ given gs mu' tu /\
    negated_where (negative_index t) (square t) te /\ negated_where (negative_index t) u tu.
  Proof.
    intros Hn Hmu. unfold from_index. cbv zeta. pose proof (given_rep n t Hn) as Hr. set (a := to_matrix_field nd n) in *.
    destruct (mul_rep gs a a t t Hr Hr) as (e & Ee & He). rewrite Ee. cbn [bind]. apply rep_given in He.
    destruct t as [f|m].
    - destruct Hr as (s & Es & Hs & Hf). rewrite (is_scalar_shape a 1 1 s Es). cbn [Nat.eqb andb]. pose proof (flipped_negated f (square (TScalar f))) as N1. pose proof (flipped_negated f u) as N2.
      destruct (any_over _ _) eqn:An.
      + assert (Hsign : given gs (amap index_sign a) (TScalar (fun p => index_sign (f p)))).
        { apply rep_given. exists s. split; [exact Es|]. split; [exact Hs|]. intros p Hp. rewrite amap_element, Hf by exact Hp. reflexivity. }
        destruct (times_scalar mu _ u _ Hmu Hsign) as (mu' & E1 & G1). destruct (times_scalar e _ _ _ He Hsign) as (e' & E2 & G2). rewrite E1. cbn [bind]. rewrite E2. cbn [bind].
        exists e', mu', (flipped f (square (TScalar f))), (flipped f u). refine (conj eq_refl (conj G2 (conj _ (conj N1 N2)))). destruct u; exact G1.
      + assert (Pos : forall p, inside gs p -> index_sign (f p) = 1).
        { intros p Hp. unfold index_sign. destruct (Rlt_dec (fst (f p)) 0) as [Hlt|]; [|reflexivity]. exfalso.
          assert (any_over (ashape a) (fun p => if Rlt_dec (fst (aget a p)) 0 then true else false) = true) as K; [|congruence].
          apply any_over_spec. exists (clip (ashape a) (0%nat :: 0%nat :: p)). split.
          - rewrite Es. cbn. constructor; [lia|]. constructor; [lia|]. apply inside_clip; assumption.
          - change (aget a (clip (ashape a) (0%nat :: 0%nat :: p))) with (element a (0%nat :: 0%nat :: p)). rewrite Hf by exact Hp. destruct (Rlt_dec _ _); [reflexivity|contradiction]. }
        exists e, mu, (flipped f (square (TScalar f))), (flipped f u). refine (conj eq_refl (conj _ (conj _ (conj N1 N2)))).
        * apply (given_agree e _ _ He). cbn. intros p Hp. rewrite (Pos p Hp). ring.
        * apply (given_agree mu _ _ Hmu). destruct u; cbn; intros; rewrite Pos by assumption; ring.
    - destruct Hr as (s & Es & Hs & Hm). rewrite (is_scalar_shape a 3 3 s Es). cbn [Nat.eqb andb]. exists e, mu, (square (TMatrix m)), u. refine (conj eq_refl (conj _ (conj Hmu (conj (same_negated m _) (same_negated m _))))).
      apply (given_agree e _ _ He). cbn. intros i j p Hi Hj Hp. ring.
  Qed.
End Forms.
