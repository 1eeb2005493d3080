(** Proofs: work arrays and uninitialised memory. *)
From Coq Require Import Reals List Arith ZArith Bool Lia.
Require Import Verif.Base Verif.Cplx Verif.CSum Verif.Field Verif.Fourier_Model Verif.Vec_Model Verif.Vec_Spec Verif.Vec_Proofs Verif.Scratch_Model.
Import ListNotations.
Local Open Scope R_scope.
Local Open Scope C_scope.

Lemma fill_same a i x p : fill a i x i p = x p.
Proof. unfold fill. rewrite Nat.eqb_refl. reflexivity. Qed.
Lemma fill_other a i x c p : c <> i -> fill a i x c p = a c p.
Proof. intros H. unfold fill. apply Nat.eqb_neq in H. rewrite H. reflexivity. Qed.

(** A loop of which step [i] only changes component [i]. *)
Lemma loop_components (body : vfield -> nat -> vfield) (G : nat -> sfield -> sfield) :
  (forall a i c p, body a i c p = if Nat.eqb c i then G i (a i) p else a c p) ->
  (forall i x y, (forall p, x p = y p) -> forall p, G i x p = G i y p) ->
  forall n s a c p, fold_left body (seq s n) a c p =
    if (Nat.leb s c && Nat.ltb c (s + n))%bool then G c (a c) p else a c p.
Proof.
  intros H E n. induction n as [|n IH]; intros s a c p; cbn [seq fold_left].
  - destruct (Nat.leb_spec s c), (Nat.ltb_spec c (s + 0)); cbn [andb]; try reflexivity; lia.
  - rewrite IH.
    destruct (Nat.leb_spec (S s) c), (Nat.ltb_spec c (S s + n)); cbn [andb].
    + replace (Nat.leb s c) with true by (symmetry; apply Nat.leb_le; lia).
      replace (Nat.ltb c (s + S n)) with true by (symmetry; apply Nat.ltb_lt; lia). cbn [andb].
      apply E. intros q. rewrite H. replace (Nat.eqb c s) with false by (symmetry; apply Nat.eqb_neq; lia). reflexivity.
    + rewrite H. replace (Nat.eqb c s) with false by (symmetry; apply Nat.eqb_neq; lia).
      replace (Nat.ltb c (s + S n)) with false by (symmetry; apply Nat.ltb_ge; lia). rewrite andb_false_r. reflexivity.
    + rewrite H. destruct (Nat.eqb_spec c s) as [->|D].
      * rewrite Nat.leb_refl. replace (Nat.ltb s (s + S n)) with true by (symmetry; apply Nat.ltb_lt; lia). reflexivity.
      * replace (Nat.leb s c) with false by (symmetry; apply Nat.leb_gt; lia). reflexivity.
    + rewrite H. replace (Nat.eqb c s) with false by (symmetry; apply Nat.eqb_neq; lia).
      replace (Nat.leb s c) with false by (symmetry; apply Nat.leb_gt; lia). reflexivity.
Qed.

Lemma curl_run_ok g vl nf junk F c p : (c < vl)%nat -> curl_run g vl nf junk F c p = curl_ft g vl nf F c p.
Proof.
  intros Hc. unfold curl_run.
  rewrite (loop_components _ (fun i _ p =>
    let o0 := other0 vl i in let o1 := other1 vl i in
    (if (Nat.ltb o0 nf && Nat.ltb o1 (rndim g))%bool then RtoC (kvec g o1 p) * F o0 p else 0) -
    (if (Nat.ltb o1 nf && Nat.ltb o0 (rndim g))%bool then RtoC (kvec g o0 p) * F o1 p else 0))).
  - cbn [Nat.leb andb]. replace (Nat.ltb c (0 + vl)) with true by (symmetry; apply Nat.ltb_lt; lia). reflexivity.
  - clear. intros a i c p. unfold curl_body.
    destruct (Nat.ltb (other0 vl i) nf && Nat.ltb (other1 vl i) (rndim g))%bool,
             (Nat.ltb (other1 vl i) nf && Nat.ltb (other0 vl i) (rndim g))%bool; unfold fill;
      destruct (Nat.eqb_spec c i); rewrite ?Nat.eqb_refl; try reflexivity; ring.
  - intros; reflexivity.
Qed.

Lemma other_lt n i : (0 < n)%nat -> (other0 n i < n /\ other1 n i < n)%nat.
Proof. intros H. unfold other0, other1. split; apply Nat.mod_upper_bound; lia. Qed.

Lemma cross_run_ok na nb junk A B c p : (na <= nb)%nat -> (c < na)%nat ->
  cross_run na nb junk A B c p = cross na A B c p.
Proof.
  intros Hn Hc. unfold cross_run.
  rewrite (loop_components _ (fun i _ p => A (other1 na i) p * B (other0 na i) p - A (other0 na i) p * B (other1 na i) p)).
  - cbn [Nat.leb andb]. replace (Nat.ltb c (0 + na)) with true by (symmetry; apply Nat.ltb_lt; lia). reflexivity.
  - clear - Hn Hc. intros a i c' p. unfold cross_body. destruct (other_lt na i) as [L0 L1]; [lia|].
    replace (Nat.ltb (other1 na i) na) with true by (symmetry; apply Nat.ltb_lt; lia).
    replace (Nat.ltb (other0 na i) na) with true by (symmetry; apply Nat.ltb_lt; lia).
    replace (Nat.ltb (other1 na i) nb) with true by (symmetry; apply Nat.ltb_lt; lia).
    replace (Nat.ltb (other0 na i) nb) with true by (symmetry; apply Nat.ltb_lt; lia). cbn [andb].
    unfold fill. rewrite Nat.eqb_refl. destruct (Nat.eqb c' i); reflexivity.
  - intros; reflexivity.
Qed.
Lemma cross_run_junk junk A B p : cross_run 3 2 junk A B 0%nat p = junk 0%nat p - A 2%nat p * B 1%nat p.
Proof. reflexivity. Qed.

Lemma csum_first n f : csum (S n) f = f 0%nat + csum n (fun i => f (S i)).
Proof. induction n as [|n IH]; [cbn; ring|]. change (csum (S (S n)) f) with (csum (S n) f + f (S n)). rewrite IH. cbn [csum]. ring. Qed.
Lemma fold_sum (f : nat -> sfield) n s (d : sfield) p :
  fold_left (fun (d : sfield) i p => d p + f i p) (seq s n) d p = d p + csum n (fun i => f (s + i)%nat p).
Proof.
  revert s d. induction n as [|n IH]; intros s d; cbn [seq fold_left].
  - cbn. ring.
  - rewrite IH. rewrite csum_first. rewrite Nat.add_0_r. rewrite <- Cplus_assoc. f_equal. f_equal. apply csum_ext. intros i _. f_equal. lia.
Qed.

Lemma div_run_ok g nf junk F : (rndim g <= nf)%nat ->
  exists r r', div_run g nf junk F = Ok r /\ div_ft g nf F = Ok r' /\ forall p, r p = r' p.
Proof.
  intros H. unfold div_run, div_ft. replace (Nat.ltb nf (rndim g)) with false by (symmetry; apply Nat.ltb_ge; exact H).
  eexists. eexists. split; [reflexivity|]. split; [reflexivity|]. intros p. cbv beta.
  rewrite (fold_sum (fun i p => Ci * RtoC (kvec g i p) * F i p)). rewrite Cplus_0_l. apply csum_ext. intros. reflexivity.
Qed.

Lemma project_run_ok g vl nf F w r : (1 <= rndim g <= nf)%nat -> (nf <= vl)%nat ->
  exists r' w', project_run g vl nf false F w r = Ok (r', w') /\
    forall c p, (c < nf)%nat -> r' c p = longitudinal_ft g F c p.
Proof.
  intros H V. unfold project_run.
  replace (Nat.ltb nf (rndim g)) with false by (symmetry; apply Nat.ltb_ge; lia).
  replace (Nat.ltb vl (Nat.max (rndim g) nf)) with false by (symmetry; apply Nat.ltb_ge; lia).
  eexists. eexists. split; [reflexivity|]. intros c p Hc.
  set (nd := rndim g) in *.
  rewrite (loop_components _ (fun _ _ _ => 0)).
  2: intros; unfold fill; reflexivity.
  2: intros; reflexivity.
  set (w4 := fun p : list nat => if is_origin p then _ else _).
  rewrite (loop_components _ (fun i _ p => if is_origin p then F i p else RtoC (kvec g i p) * w4 p)).
  2: { clear. intros a i c p. unfold project_body, fill. rewrite Nat.eqb_refl. destruct (Nat.eqb c i); reflexivity. }
  2: intros; reflexivity.
  replace (nd + (Nat.max nd nf - nd))%nat with nf by lia.
  replace (Nat.ltb c nf) with true by (symmetry; apply Nat.ltb_lt; lia). rewrite andb_true_r.
  unfold longitudinal_ft. fold nd. cbn [Nat.leb andb Nat.add].
  destruct (Nat.leb_spec nd c), (Nat.ltb_spec c nd); try lia; [reflexivity|].
  unfold w4. destruct (is_origin p); [reflexivity|]. do 2 f_equal.
  rewrite (fold_sum (fun i p => RtoC (kvec g i p) * F i p)).
  replace nd with (S (nd - 1)) at 2 by lia. rewrite csum_first. f_equal. apply Cmult_comm.
Qed.

(** ** The shape of the work array. *)
Lemma copies_refl s : copies s s = true.
Proof. induction s as [|a s IH]; cbn; [reflexivity|]. rewrite Nat.eqb_refl, orb_true_r. exact IH. Qed.

Lemma nth_ext_len (x y : list nat) : length x = length y -> (forall i, (i < length x)%nat -> nth i x 1%nat = nth i y 1%nat) -> x = y.
Proof. intros L H. apply (nth_ext _ _ 1%nat 1%nat L H). Qed.

Lemma copies_spec x y : copies x y = true <->
  length x = length y /\ forall i, (i < length x)%nat -> nth i x 1%nat = 1%nat \/ nth i x 1%nat = nth i y 1%nat.
Proof.
  revert y. induction x as [|a x IH]; intros [|b y]; cbn [copies length].
  - split; [intros _; split; [reflexivity|intros i Hi; lia]|reflexivity].
  - split; [discriminate|intros [L _]; discriminate].
  - split; [discriminate|intros [L _]; discriminate].
  - rewrite andb_true_iff, orb_true_iff, !Nat.eqb_eq, IH. split.
    + intros [H [L K]]. split; [congruence|]. intros [|i] Hi; cbn [nth]; [exact H|apply K; lia].
    + intros [L K]. split; [apply (K 0%nat); lia|]. split; [congruence|]. intros i Hi. apply (K (S i)). lia.
Qed.

Lemma combined_spec x y s : combined x y = Ok s ->
  length s = length x /\ length x = length y /\
  forall i, (i < length x)%nat -> nth i s 1%nat = if Nat.eqb (nth i x 1%nat) 1 then nth i y 1%nat else nth i x 1%nat.
Proof.
  revert y s. induction x as [|a x IH]; intros [|b y] s; cbn [combined]; intros E; try discriminate.
  - injection E as <-. split; [reflexivity|]. split; [reflexivity|]. intros i Hi. cbn in Hi. lia.
  - destruct (Nat.eqb a 1 || Nat.eqb b 1 || Nat.eqb a b)%bool; [|discriminate].
    destruct (combined x y) as [r|] eqn:Er; [|discriminate]. cbn [bind] in E. injection E as <-.
    destruct (IH _ _ Er) as (L1 & L2 & K). cbn [length]. split; [congruence|]. split; [congruence|].
    intros [|i] Hi; cbn [nth]; [reflexivity|]. apply K. lia.
Qed.
Lemma combined_ok x y : length x = length y ->
  (forall i, (i < length x)%nat -> nth i x 1%nat = 1%nat \/ nth i y 1%nat = 1%nat \/ nth i x 1%nat = nth i y 1%nat) ->
  exists s, combined x y = Ok s.
Proof.
  revert y. induction x as [|a x IH]; intros [|b y] L H; cbn [length] in L; try discriminate; cbn [combined].
  - eexists. reflexivity.
  - assert ((Nat.eqb a 1 || Nat.eqb b 1 || Nat.eqb a b)%bool = true) as ->.
    { rewrite !orb_true_iff, !Nat.eqb_eq. destruct (H 0%nat) as [K|[K|K]]; cbn [nth length] in *; try lia; auto. }
    destruct (IH y) as [s ->]; [congruence| |eexists; reflexivity]. intros i Hi. apply (H (S i)). cbn [length]. lia.
Qed.

Lemma k_shape_length grid axis : length (k_shape grid axis) = length grid.
Proof. unfold k_shape. rewrite map_length, seq_length. reflexivity. Qed.
Lemma k_shape_nth grid axis i : (i < length grid)%nat ->
  nth i (k_shape grid axis) 1%nat = if Nat.eqb i axis then nth i grid 1%nat else 1%nat.
Proof.
  intros H. unfold k_shape. set (f := fun i => if Nat.eqb i axis then nth i grid 1%nat else 1%nat).
  rewrite (nth_indep _ _ (f 0%nat)) by (rewrite map_length, seq_length; exact H).
  rewrite map_nth, seq_nth by exact H. reflexivity.
Qed.

(** Products of something that fits the grid. *)
Lemma k_stored_grid grid x axis : copies x grid = true -> k_stored grid x grid axis = true.
Proof.
  intros H. apply copies_spec in H. destruct H as [L H]. unfold k_stored.
  destruct (combined_ok (k_shape grid axis) x) as [s E].
  - rewrite k_shape_length. congruence.
  - rewrite k_shape_length. intros i Hi. rewrite k_shape_nth by exact Hi. destruct (Nat.eqb i axis); [|auto].
    destruct (H i); [congruence| |]; auto.
  - rewrite E. apply combined_spec in E. destruct E as (L1 & L2 & K). rewrite k_shape_length in *.
    apply copies_spec. split; [exact L1|]. intros i Hi. rewrite L1 in Hi. rewrite K by exact Hi. rewrite k_shape_nth by exact Hi.
    destruct (Nat.eqb i axis).
    + destruct (Nat.eqb_spec (nth i grid 1%nat) 1) as [E1|E1]; [|auto]. destruct (H i); [congruence| |]; auto.
    + cbn. apply H. congruence.
Qed.

Lemma k_copies grid axis : copies (k_shape grid axis) grid = true.
Proof.
  apply copies_spec. rewrite k_shape_length. split; [reflexivity|]. intros i Hi. rewrite k_shape_nth by exact Hi.
  destruct (Nat.eqb i axis); auto.
Qed.

Lemma call_full grid work field : work = None /\ field = grid \/ work = Some grid /\ copies field grid = true ->
  project_call grid work field = (Some grid, Ok tt).
Proof.
  intros H. unfold project_call.
  assert (match work with Some s => s | None => field end = grid) as -> by (destruct H as [[-> ->]|[-> _]]; reflexivity).
  assert (copies field grid = true) as Hf by (destruct H as [[_ ->]|[_ H]]; [apply copies_refl|exact H]).
  rewrite Hf, k_copies, Nat.eqb_refl. cbn [andb orb].
  rewrite (proj2 (forallb_forall _ _)) by (intros i _; apply k_stored_grid; exact Hf).
  rewrite (proj2 (forallb_forall _ _)) by (intros i _; apply k_stored_grid, copies_refl). reflexivity.
Qed.
Lemma call_some grid field : snd (project_call grid (Some grid) field) = Ok tt -> copies field grid = true.
Proof. unfold project_call. cbn [snd]. destruct (copies field grid); [reflexivity|discriminate]. Qed.

Lemma full_history_lemma grid fields : fields <> [] ->
  hd [] fields = grid -> Forall (fun f => copies f grid = true) fields ->
  Forall (fun r => r = Ok tt) (project_calls grid None fields).
Proof.
  destruct fields as [|f fields]; [contradiction|]. intros _ E A. cbn in E. subst f. cbn [project_calls].
  rewrite call_full by auto. constructor; [reflexivity|]. inversion_clear A as [|? ? _ A']. clear - A'.
  induction A' as [|f fields Hf A IH]; cbn [project_calls]; [constructor|].
  rewrite call_full by auto. constructor; [reflexivity|exact IH].
Qed.

(** A work array of one point along an axis with more points. *)
Lemma call_short grid w field i : (i < length grid)%nat -> (1 < nth i grid 1)%nat -> nth i w 1%nat = 1%nat ->
  project_call grid (Some w) field = (Some w, Err ValueError).
Proof.
  intros Hi G W. unfold project_call. f_equal.
  match goal with |- (if ?b then _ else _) = _ => destruct b eqn:E; [exfalso|reflexivity] end.
  rewrite !andb_true_iff in E. destruct E as ((((E1 & E2) & E3) & _) & _).
  destruct i as [|i].
  - apply copies_spec in E2. rewrite k_shape_length in E2. destruct E2 as [_ E2]. specialize (E2 0%nat Hi).
    rewrite k_shape_nth in E2 by exact Hi. cbn [Nat.eqb] in E2. lia.
  - rewrite forallb_forall in E3. specialize (E3 (S i)). unfold k_stored in E3.
    assert (In (S i) (seq 1 (length grid - 1))) as I by (apply in_seq; lia). specialize (E3 I).
    destruct (combined (k_shape grid (S i)) field) as [s|] eqn:Es; [|discriminate].
    apply combined_spec in Es. rewrite k_shape_length in Es. destruct Es as (L1 & L2 & K).
    apply copies_spec in E3. destruct E3 as [_ E3]. specialize (E3 (S i)). rewrite L1 in E3. specialize (E3 Hi).
    rewrite K, k_shape_nth, Nat.eqb_refl in E3 by exact Hi.
    destruct (Nat.eqb_spec (nth (S i) grid 1%nat) 1); lia.
Qed.
Lemma short_history_lemma grid field fields i : (i < length grid)%nat -> (1 < nth i grid 1)%nat -> nth i field 1%nat = 1%nat ->
  Forall (fun r => r = Err ValueError) (project_calls grid None (field :: fields)).
Proof.
  intros Hi G W.
  assert (project_calls grid None (field :: fields) = project_calls grid (Some field) (field :: fields)) as -> by reflexivity.
  generalize (field :: fields). intros l. induction l as [|f l IH]; cbn [project_calls]; [constructor|].
  rewrite (call_short grid field f i Hi G W). constructor; [reflexivity|exact IH].
Qed.

Lemma project_late g vl nf F w p : proper g -> inside (rshape g) p -> (1 <= rndim g <= nf)%nat -> (nf <= vl)%nat -> is_origin p = true ->
  exists r' w', project_run g vl nf true F w F = Ok (r', w') /\ forall c, (c < rndim g)%nat -> r' c p = 0.
Proof.
  intros Pg Pp H V O. unfold project_run.
  replace (Nat.ltb nf (rndim g)) with false by (symmetry; apply Nat.ltb_ge; lia).
  replace (Nat.ltb vl (Nat.max (rndim g) nf)) with false by (symmetry; apply Nat.ltb_ge; lia).
  eexists. eexists. split; [reflexivity|]. intros c Hc.
  rewrite (loop_components _ (fun _ _ _ => 0)).
  2: intros; unfold fill; reflexivity.
  2: intros; reflexivity.
  set (w4 := fun p : list nat => if is_origin p then _ else _).
  rewrite (loop_components _ (fun i _ p => RtoC (kvec g i p) * w4 p)).
  2: { clear. intros a i c p. unfold project_body, fill. rewrite Nat.eqb_refl. destruct (Nat.eqb c i), (is_origin p); reflexivity. }
  2: intros; reflexivity.
  replace (Nat.leb (rndim g) c) with false by (symmetry; apply Nat.leb_gt; lia).
  replace (Nat.ltb c (0 + rndim g)) with true by (symmetry; apply Nat.ltb_lt; lia). cbn [Nat.leb andb].
  rewrite kvec_origin by assumption. apply Cmult_0_l.
Qed.
