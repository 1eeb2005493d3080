(** Proofs about the device on which a loaded back-end calculates. *)
From Coq Require Import String Ascii ZArith Decimal DecimalString DecimalN.
From Verif Require Import Base Load_Model Load_Spec Load_Proofs Device_Model Device_Spec.
Local Open Scope string_scope.

Lemma lower_uint u : lower (NilEmpty.string_of_uint u) = NilEmpty.string_of_uint u.
Proof. induction u; cbn; try rewrite IHu; reflexivity. Qed.
Lemma lower_digits u : lower (NilZero.string_of_uint u) = NilZero.string_of_uint u.
Proof. destruct u; try reflexivity; apply (lower_uint (_ u)). Qed.

Lemma substring_all s : substring 0 (String.length s) s = s.
Proof. induction s as [|c s IH]; cbn; [reflexivity|]. now rewrite IH. Qed.
Lemma drop5_cuda t : drop5 ("cuda:" ++ t) = t.
Proof.
  unfold drop5. cbn [append String.length]. rewrite !Nat.sub_succ, Nat.sub_0_r. cbn [substring].
  apply substring_all.
Qed.
Lemma lower_cuda t : lower ("cuda:" ++ t) = "cuda:" ++ lower t.
Proof. reflexivity. Qed.
Lemma prefix_cuda t : prefix "cuda:" ("cuda:" ++ t) = true.
Proof. destruct t; reflexivity. Qed.
Lemma drop3_gpu t : drop3 ("gpu" ++ t) = t.
Proof.
  unfold drop3. cbn [append String.length]. rewrite !Nat.sub_succ, Nat.sub_0_r. cbn [substring].
  apply substring_all.
Qed.

Lemma int_of_uint u : u <> Nil -> int_of (NilZero.string_of_uint u) = Some (Z.of_uint u).
Proof.
  intros H. unfold int_of. change (NilZero.string_of_uint u) with (NilZero.string_of_int (Pos u)).
  rewrite NilZero.isi; [reflexivity| |discriminate]. intros E. now injection E.
Qed.

Lemma number_nonnil n : N.to_uint n <> Nil.
Proof.
  destruct n; cbn; [discriminate|]. apply DecimalPos.Unsigned.to_uint_nonnil.
Qed.
Lemma number_value n : Z.of_uint (N.to_uint (N.of_nat n)) = Z.of_nat n.
Proof.
  unfold Z.of_uint. change (Pos.of_uint (N.to_uint (N.of_nat n))) with (N.of_uint (N.to_uint (N.of_nat n))).
  rewrite Unsigned.of_to. apply nat_N_Z.
Qed.
Lemma uint_value u : (0 <= Z.of_uint u)%Z.
Proof. unfold Z.of_uint. apply N2Z.is_nonneg. Qed.

(** The constructor for an explicit number. *)
Lemma start_numbered m u : u <> Nil ->
  start m (Some ("cuda:" ++ NilZero.string_of_uint u)) =
  if (Z.of_nat (count m) - 1 <? Z.of_uint u)%Z
  then (if good m then Ok (OnGpu (current m)) else Err OtherException)
  else Ok (OnGpu (Z.to_nat (Z.of_uint u))).
Proof.
  intros H. unfold start, good.
  change ("cuda:" ++ NilZero.string_of_uint u =? "cuda") with false. cbv iota.
  change (4 <? String.length ("cuda:" ++ NilZero.string_of_uint u))%nat with true. cbv iota.
  rewrite lower_cuda, lower_digits, drop5_cuda, int_of_uint by exact H. cbv iota beta.
  destruct (Z.of_nat (count m) - 1 <? Z.of_uint u)%Z.
  - reflexivity.
  - unfold torch_device. rewrite prefix_cuda, drop5_cuda, NilZero.usu by exact H. reflexivity.
Qed.

Lemma start_gpu m n :
  start m (Some ("cuda:" ++ digits n)) =
  if (n <? count m)%nat then Ok (OnGpu n)
  else if good m then Ok (OnGpu (current m)) else Err OtherException.
Proof.
  unfold digits. rewrite start_numbered by apply number_nonnil. rewrite number_value, Nat2Z.id.
  destruct (Z.ltb_spec (Z.of_nat (count m) - 1) (Z.of_nat n)), (Nat.ltb_spec n (count m)); try reflexivity; lia.
Qed.

Lemma start_none m :
  start m None = if available m then (if good m then Ok (OnGpu (current m)) else Err OtherException) else Ok OnCpu.
Proof. unfold start, good. destruct (available m); reflexivity. Qed.
Lemma start_cuda m :
  start m (Some "cuda") =
  if available m then (if good m then Ok (OnGpu (current m)) else Err OtherException) else Ok OnCpu.
Proof. unfold start, good. destruct (available m); reflexivity. Qed.
Lemma start_cpu m : start m (Some "cpu") = Ok OnCpu.
Proof. reflexivity. Qed.

(** A GPU on which the back-end calculates exists. *)
Lemma start_exists m d n :
  (available m = true -> (0 < count m)%nat -> (current m < count m)%nat) ->
  start m d = Ok (OnGpu n) -> (n < count m)%nat.
Proof.
  intros Hc.
  assert (Hcuda : forall p, (if good m then Ok p else Err OtherException) = Ok (OnGpu n) -> p = OnGpu (current m) ->
            (n < count m)%nat).
  { intros p H ->. unfold good in H.
    destruct (available m); [|discriminate H]. destruct (Nat.ltb_spec 0 (count m)); [|discriminate H].
    destruct (negb _); [|discriminate H]. injection H as <-. now apply Hc. }
  unfold start.
  set (v := match d with None => _ | Some d => _ end). clearbody v.
  destruct (4 <? String.length v)%nat eqn:L.
  - destruct (int_of (drop5 (lower v))) as [z|] eqn:I; [|discriminate].
    destruct (Z.ltb_spec (Z.of_nat (count m) - 1) z).
    + intros H'. eapply Hcuda; [exact H'|reflexivity].
    + unfold torch_device.
      destruct (String.eqb_spec v "cpu") as [->|_]; [discriminate L|].
      destruct (String.eqb_spec v "cpu:0") as [->|_]; [discriminate I|].
      destruct (String.eqb_spec v "cuda") as [->|_]; [discriminate L|].
      destruct (prefix "cuda:" v) eqn:P; [|discriminate].
      assert (exists t, v = "cuda:" ++ t) as [t ->].
      { clear -P.
        do 5 (destruct v as [|c v]; [discriminate P|]; cbn [prefix] in P;
              match type of P with context [ascii_dec ?a ?b] => destruct (ascii_dec a b) as [<-|]; [|discriminate P] end).
        now exists v. }
      rewrite drop5_cuda. rewrite lower_cuda, drop5_cuda in I.
      destruct (NilZero.uint_of_string t) as [u|] eqn:U; [|discriminate]. cbn [option_map].
      apply NilZero.sus in U as E. subst t. rewrite lower_digits in I.
      rewrite int_of_uint in I by (intros ->; discriminate U || (now apply NilZero.uint_of_string_nonnil in U)).
      injection I as <-. intros E. injection E as <-. pose proof (uint_value u). lia.
  - unfold torch_device.
    destruct (String.eqb_spec v "cpu") as [->|_]; [discriminate|].
    destruct (String.eqb_spec v "cpu:0") as [->|_]; [discriminate|].
    destruct (String.eqb_spec v "cuda") as [->|_].
    + intros H'. eapply Hcuda; [exact H'|reflexivity].
    + destruct (prefix "cuda:" v) eqn:P; [|discriminate].
      exfalso. clear -P L. do 5 (destruct v as [|? v]; [discriminate P|]; cbn [prefix] in P;
              match type of P with context [ascii_dec ?a ?b] => destruct (ascii_dec a b); [|discriminate P] end).
      discriminate L.
Qed.

(** What [load] gives. *)
Section Load.
Variables (e : env) (m : machine) (h1 h2 : list op) (d : option string).
Hypothesis Hn : numpy_init e = None.
Hypothesis Hh : hist_ok init (h1 ++ ONewList (request d) :: h2).
Hypothesis Hd : describes e m.

Lemma asked_first b : first_usable e (request d ++ default_cfgs)%list b -> asked e h1 (request d) h2 = Ok b.
Proof.
  intros F. destruct (load_explicit_first e h1 h2 (request d) Hn Hh) as (b' & E & F'). unfold asked. rewrite E.
  f_equal. exact (first_usable_unique _ _ _ _ F' F).
Qed.

Lemma usable_place v p c : c_type c = Some "torch" -> requested_device c = v ->
  (needs_cuda v -> available m = true /\ (0 < count m)%nat) -> start m v = Ok p -> usable e c (BTorch v).
Proof.
  intros Ht <- Hc Hs. destruct Hd as (A & B & C & D & I). eapply usable_torch; eauto.
  - now rewrite C, D.
  - apply I. now exists p.
Qed.

Lemma unusable v c b : c_type c = Some "torch" -> requested_device c = v ->
  (needs_cuda v -> available m = true -> (0 < count m)%nat -> forall p, start m v <> Ok p) ->
  ((~ needs_cuda v) -> forall p, start m v <> Ok p) -> ~ usable e c b.
Proof.
  intros Ht <- Hc Hs U. destruct Hd as (A & B & C & D & I). destruct U as [t Ht' L _ _ G J|t Ht' L _].
  - apply I in J as [p J].
    assert (N : ~ needs_cuda (requested_device c)).
    { intros N. destruct (G N) as [X Y]. rewrite C in X. rewrite D in Y. exact (Hc N X Y p J). }
    exact (Hs N p J).
  - rewrite Ht in Ht'. injection Ht' as <-. discriminate L.
Qed.

Lemma asked_given v p : requested_device {| c_type := Some "torch"; c_device := d |} = v ->
  (needs_cuda v -> available m = true /\ (0 < count m)%nat) -> start m v = Ok p ->
  asked e h1 (request d) h2 = Ok (BTorch v).
Proof.
  intros E Hc Hs. apply asked_first. exists [], {| c_type := Some "torch"; c_device := d |}, default_cfgs.
  refine (conj eq_refl (conj _ _)); [intros ? ? []|]. eapply usable_place; eauto.
Qed.

(** If the request cannot be met, the default GPU is used if it works, and the CPU if not. *)
Lemma asked_default : (forall b, ~ usable e {| c_type := Some "torch"; c_device := d |} b) ->
  asked e h1 (request d) h2 = Ok (BTorch (Some (if good m then "cuda" else "cpu"))).
Proof.
  intros U. apply asked_first. unfold good.
  destruct (available m && (0 <? count m)%nat && negb (broken m (current m))) eqn:G.
  - exists (request d), {| c_type := Some "torch"; c_device := Some "cuda" |},
      [{| c_type := Some "torch"; c_device := Some "cpu" |}; {| c_type := Some "numpy"; c_device := None |}].
    refine (conj eq_refl (conj _ _)).
    + intros c b [<-|[]]. apply U.
    + apply (usable_place (Some "cuda") (OnGpu (current m))); try reflexivity.
      * intros _. apply andb_prop in G as [G _]. apply andb_prop in G as [G1 G2]. apply Nat.ltb_lt in G2. now split.
      * rewrite start_cuda. unfold good. rewrite G. apply andb_prop in G as [G _]. apply andb_prop in G as [-> _].
        reflexivity.
  - exists (request d ++ [{| c_type := Some "torch"; c_device := Some "cuda" |}])%list,
      {| c_type := Some "torch"; c_device := Some "cpu" |}, [{| c_type := Some "numpy"; c_device := None |}].
    refine (conj eq_refl (conj _ _)).
    + intros c b [<-|[<-|[]]]; [apply U|].
      apply (unusable (Some "cuda")); try reflexivity.
      * intros _ A B p. rewrite start_cuda. unfold good. rewrite G, A. discriminate.
      * intros N. exfalso. apply N. now exists "".
    + apply (usable_place (Some "cpu") OnCpu); try reflexivity.
      intros [r E]. discriminate E.
Qed.

Lemma asked_default_place : (forall b, ~ usable e {| c_type := Some "torch"; c_device := d |} b) ->
  calculates m (asked e h1 (request d) h2) (if good m then OnGpu (current m) else OnCpu).
Proof.
  intros U. rewrite asked_default by exact U. unfold calculates. destruct (good m) eqn:G.
  - rewrite start_cuda, G. unfold good in G. destruct (available m); [reflexivity|discriminate G].
  - apply start_cpu.
Qed.
End Load.

Lemma requested_gpu d n : names_gpu d n ->
  requested_device {| c_type := Some "torch"; c_device := Some d |} = Some ("cuda:" ++ digits n).
Proof.
  intros [H|H]; unfold requested_device; cbn [c_device]; rewrite H.
  - reflexivity.
  - change (prefix "gpu" ("gpu:" ++ digits n)) with true. cbv iota.
    change ("gpu:" ++ digits n) with ("gpu" ++ (":" ++ digits n)). rewrite drop3_gpu. reflexivity.
Qed.

Theorem gpu_numbered e m h1 h2 d n :
  numpy_init e = None -> hist_ok init (h1 ++ ONewList (request (Some d)) :: h2) -> describes e m ->
  available m = true -> names_gpu d n -> (n < count m)%nat ->
  calculates m (asked e h1 (request (Some d)) h2) (OnGpu n).
Proof.
  intros Hn Hh Hd Ha Hg Hl.
  assert (E : start m (Some ("cuda:" ++ digits n)) = Ok (OnGpu n)).
  { rewrite start_gpu. now apply Nat.ltb_lt in Hl as ->. }
  erewrite asked_given; eauto.
  - apply requested_gpu, Hg.
  - intros _. split; [exact Ha|lia].
Qed.

Theorem gpu_absent e m h1 h2 d n :
  numpy_init e = None -> hist_ok init (h1 ++ ONewList (request (Some d)) :: h2) -> describes e m ->
  names_gpu d n -> (count m <= n)%nat \/ available m = false ->
  calculates m (asked e h1 (request (Some d)) h2) (if good m then OnGpu (current m) else OnCpu).
Proof.
  intros Hn Hh Hd Hg Ha.
  assert (E : (count m <= n)%nat -> start m (Some ("cuda:" ++ digits n)) =
                if good m then Ok (OnGpu (current m)) else Err OtherException).
  { intros H. rewrite start_gpu. now apply Nat.ltb_ge in H as ->. }
  pose proof (requested_gpu _ _ Hg) as R.
  destruct (good m) eqn:G.
  - unfold good in G. apply andb_prop in G as [G _]. apply andb_prop in G as [G1 G2]. apply Nat.ltb_lt in G2.
    destruct Ha as [Ha|Ha]; [|congruence]. specialize (E Ha).
    erewrite asked_given; eauto.
  - pose proof (asked_default_place e m h1 h2 (Some d) Hn Hh Hd) as P. rewrite G in P. apply P.
    intros b. eapply unusable; [exact Hd|reflexivity|exact R| |].
    + intros _ A B p. destruct Ha as [Ha|Ha]; [|congruence]. rewrite E by exact Ha. discriminate.
    + intros N. exfalso. apply N. now exists (":" ++ digits n).
Qed.

Theorem cpu_requested e m h1 h2 d :
  numpy_init e = None -> hist_ok init (h1 ++ ONewList (request (Some d)) :: h2) -> describes e m ->
  lower d = "cpu" -> calculates m (asked e h1 (request (Some d)) h2) OnCpu.
Proof.
  intros Hn Hh Hd E.
  assert (R : requested_device {| c_type := Some "torch"; c_device := Some d |} = Some "cpu").
  { unfold requested_device. cbn [c_device]. now rewrite E. }
  erewrite asked_given; eauto; [exact (start_cpu m)| |exact (start_cpu m)].
  intros [r X]. discriminate X.
Qed.

Theorem any_requested e m h1 h2 d :
  numpy_init e = None -> hist_ok init (h1 ++ ONewList (request d) :: h2) -> describes e m ->
  d = None \/ (exists d', d = Some d' /\ (lower d' = "cuda" \/ lower d' = "gpu")) ->
  calculates m (asked e h1 (request d) h2) (if good m then OnGpu (current m) else OnCpu).
Proof.
  intros Hn Hh Hd E.
  set (v := requested_device {| c_type := Some "torch"; c_device := d |}).
  assert (V : v = None \/ v = Some "cuda").
  { destruct E as [->|(d' & -> & [E|E])]; [left; reflexivity|right|right];
      unfold v, requested_device; cbn [c_device]; rewrite E; reflexivity. }
  assert (S : start m v = if available m then (if good m then Ok (OnGpu (current m)) else Err OtherException) else Ok OnCpu).
  { destruct V as [-> | ->]; [apply start_none|apply start_cuda]. }
  destruct (good m) eqn:G.
  - pose proof G as G'. unfold good in G'. apply andb_prop in G' as [G' _]. apply andb_prop in G' as [G1 G2].
    apply Nat.ltb_lt in G2. rewrite G1 in S.
    erewrite asked_given; eauto.
  - destruct V as [V|V].
    + destruct (available m) eqn:A.
      * pose proof (asked_default_place e m h1 h2 d Hn Hh Hd) as P. rewrite G in P. apply P.
        intros b. apply (unusable e m Hd v); [reflexivity|reflexivity| |].
        -- intros _ _ _ p. rewrite S. discriminate.
        -- intros _ p. rewrite S. discriminate.
      * erewrite asked_given; eauto. rewrite V. intros [r X]. discriminate X.
    + pose proof (asked_default_place e m h1 h2 d Hn Hh Hd) as P. rewrite G in P. apply P.
      intros b. apply (unusable e m Hd v); [reflexivity|reflexivity| |].
      * intros _ A _ p. rewrite S, A. discriminate.
      * intros N. exfalso. apply N. rewrite V. now exists "".
Qed.

Theorem gpu_exists e m h1 h2 l n :
  (available m = true -> (0 < count m)%nat -> (current m < count m)%nat) ->
  calculates m (asked e h1 l h2) (OnGpu n) -> (n < count m)%nat.
Proof.
  intros Hc. unfold calculates. destruct (asked e h1 l h2) as [[d|]|]; [|discriminate|intros []].
  now apply start_exists.
Qed.

(** "cpu:0" is a name of the CPU, but it is not understood, and the GPU is used. *)
Theorem cpu_zero e m h1 h2 :
  numpy_init e = None -> hist_ok init (h1 ++ ONewList (request (Some "cpu:0")) :: h2) -> describes e m ->
  torch_device m "cpu:0" = Some OnCpu /\
  calculates m (asked e h1 (request (Some "cpu:0")) h2) (if good m then OnGpu (current m) else OnCpu).
Proof.
  intros Hn Hh Hd. split; [reflexivity|]. apply asked_default_place; auto. intros b.
  apply (unusable e m Hd (Some "cpu:0")); try reflexivity.
  - intros _ _ _ p. discriminate.
  - intros _ p. discriminate.
Qed.
