(** The array functions of the torch back-end give the results of numpy's. *)
From Coq Require Import Reals Lra List Arith Bool Lia Sorted Permutation.
Require Import Verif.Base Verif.Num Verif.Cplx Verif.CSum Verif.Solver_Model Verif.Display_Model Verif.Modes_Model Verif.Array_Model Verif.Array_Spec Verif.Array_Proofs Verif.Array_Assign Verif.Array_Glue
  Verif.Roots_Model Verif.Roots_Spec Verif.Roots_Proofs Verif.Torch_Model Verif.Torch_Spec.
Import ListNotations.
Local Open Scope R_scope.
Local Open Scope C_scope.

(** ** Products *)
Lemma bzip_self s : bzip s s = Some s.
Proof. induction s as [|n s IH]; [reflexivity|]. cbn. unfold bdim. rewrite Nat.eqb_refl, IH. reflexivity. Qed.
Lemma bzip_length s t r : bzip s t = Some r -> length s = length r /\ length t = length r.
Proof.
  revert t r. induction s as [|m s IH]; intros [|n t] r; cbn; try discriminate.
  - intros [= <-]. split; reflexivity.
  - destruct (bdim m n); [|discriminate]. destruct (bzip s t) eqn:E; [|discriminate]. intros [= <-]. cbn. destruct (IH _ _ E). split; congruence.
Qed.
(** Elementwise operations of arrays of the same shape. *)
Lemma abin_same f a b : ashape a = ashape b -> exists c, abin f a b = Ok c /\ ashape c = ashape a /\ forall p, inside (ashape a) p -> aget c p = f (aget a p) (aget b p).
Proof.
  intros H. unfold abin. rewrite <- H, bshape_same, bzip_self by reflexivity. eexists. split; [reflexivity|]. split; [reflexivity|]. cbn [aget]. intros p Hp.
  rewrite !bget_same by (unfold adim; rewrite <- ?H; apply inside_length; exact Hp). unfold element. rewrite <- H, inside_clip by exact Hp. reflexivity.
Qed.
Lemma product_parts n (x y : nat -> C) :
  csum n (fun l => x l * y l) =
  RtoC (rsum n (fun l => fst (x l) * fst (y l)))%R - RtoC (rsum n (fun l => snd (x l) * snd (y l)))%R + Ci * RtoC (rsum n (fun l => fst (x l) * snd (y l)))%R
  + Ci * RtoC (rsum n (fun l => snd (x l) * fst (y l)))%R.
Proof.
  induction n as [|n IH]; [cbn; ring|]. cbn [csum rsum]. rewrite IH, !RtoC_plus. generalize (rsum n (fun l => fst (x l) * fst (y l)))%R (rsum n (fun l => snd (x l) * snd (y l)))%R (rsum n (fun l => fst (x l) * snd (y l)))%R (rsum n (fun l => snd (x l) * fst (y l)))%R.
  intros A B D E. destruct (x n) as [a b], (y n) as [c d]. unfold Cmult, Cplus, Cminus, Copp, RtoC, Ci. cbn. f_equal; ring.
Qed.
Section Products.
  Variables (a b : array) (m j n : nat) (s t : list nat).
  Hypotheses (Ha : ashape a = m :: j :: s) (Hb : ashape b = j :: n :: t) (Hst : length s = length t).
  Lemma matmul_shape f g : matmul f g (matrices_last a) (matrices_last b) =
    match bzip s t with
    | Some r => Ok (Arr (r ++ [m; n]) (fun p => let q := firstn (length r) p in
        RtoC (rsum j (fun l => f (bget (matrices_last a) (q ++ [nth (length r) p 0%nat; l])) * g (bget (matrices_last b) (q ++ [l; nth (length r + 1) p 0%nat])))%R)))
    | None => Err ValueError
    end.
  Proof.
    assert (ashape (matrices_last a) = s ++ [m; j]) as Ea by (unfold matrices_last; cbn [ashape]; rewrite Ha; reflexivity).
    assert (ashape (matrices_last b) = t ++ [j; n]) as Eb by (unfold matrices_last; cbn [ashape]; rewrite Hb; reflexivity).
    unfold matmul. cbv zeta. unfold adim. rewrite Ea, Eb, !app_length. cbn [length]. rewrite !Nat.add_sub.
    rewrite !skip_app, !first_app by reflexivity. rewrite bshape_same by exact Hst. destruct (bzip s t); [|reflexivity]. rewrite Nat.eqb_refl. reflexivity.
  Qed.
  Lemma last_element (x : array) k l u q i d : ashape x = k :: l :: u -> length q = length u -> bget (matrices_last x) (q ++ [i; d]) = bget x (i :: d :: q).
  Proof.
    intros Hx Hq. assert (ashape (matrices_last x) = u ++ [k; l]) as Ex by (unfold matrices_last; cbn [ashape]; rewrite Hx; reflexivity).
    rewrite !bget_same by (unfold adim; rewrite ?Ex, ?Hx, ?app_length; cbn; lia). unfold element. rewrite Ex, Hx. rewrite clip_app by exact Hq.
    change (clip [k; l] [i; d]) with [if (k =? 1)%nat then 0%nat else i; if (l =? 1)%nat then 0%nat else d]. rewrite (last_get' x k l u) by (try exact Hx; apply clip_length; exact Hq). reflexivity.
  Qed.
  Lemma torch_product : is_scalar a || is_scalar b = false -> same_result (mul a b) (torch_mul a b).
  Proof.
    intros Hsc. unfold mul, torch_mul. rewrite Hsc. cbv zeta. rewrite !matmul_shape. unfold einsum. rewrite Ha, Hb.
    unfold bdim. rewrite Nat.eqb_refl. destruct (bzip s t) as [r|] eqn:Er; [|exact I]. cbn [bind].
    destruct (bzip_length _ _ _ Er) as [Ls Lt].
    assert (forall f p, inside (m :: n :: r) p -> exists i k q, p = i :: k :: q /\ inside (r ++ [m; n]) (q ++ [i; k]) /\ length q = length r /\
      f (firstn (length r) (q ++ [i; k])) (nth (length r) (q ++ [i; k]) 0%nat) (nth (length r + 1) (q ++ [i; k]) 0%nat) = (f q i k : C)) as Hp.
    { intros f p Hp. inversion Hp as [|? i ? p' Hi Hp1]; subst. inversion Hp1 as [|? k ? q Hk Hq]; subst. exists i, k, q. split; [reflexivity|].
      pose proof (inside_length _ _ Hq) as Lq. split; [|split; [exact Lq|]].
      - apply Forall2_app; [exact Hq|]. constructor; [exact Hi|]. constructor; [exact Hk|constructor].
      - rewrite first_app by exact Lq. rewrite (nth_after q [i; k] (length r) 1) by exact Lq. rewrite <- (Nat.add_0_r (length r)) at 1. rewrite (nth_after q [i; k] (length r) 0) by exact Lq. reflexivity. }
    match goal with |- context [bind (abin Cminus ?x ?y) _] => destruct (abin_same Cminus x y eq_refl) as (c1 & -> & S1 & V1) end. cbn [bind].
    match goal with |- context [bind (abin Cplus c1 ?y) _] => destruct (abin_same Cplus c1 y S1) as (c2 & -> & S2 & V2) end. cbn [bind].
    match goal with |- context [bind (abin Cplus c2 ?y) _] => destruct (abin_same Cplus c2 y (eq_trans S2 S1)) as (c3 & -> & S3 & V3) end. cbn [bind].
    cbn [ashape] in S1. rewrite S1 in S2. rewrite S2 in S3.
    split.
    - unfold matrices_first. cbn [ashape]. unfold adim. rewrite S3, app_length. cbn [length]. rewrite Nat.add_sub, skip_app, first_app by reflexivity. reflexivity.
    - cbn [ashape]. intros p Hin. destruct (Hp (fun _ _ _ => RtoC 0) p Hin) as (i & k & q & -> & Hq & Lq & _). unfold matrices_first. cbn [aget skipn firstn].
      rewrite V3, V2, V1 by (rewrite ?S1, ?S2; exact Hq). cbn [amap aget]. cbv zeta.
      rewrite first_app by exact Lq. rewrite (nth_after q [i; k] (length r) 1) by exact Lq.
      replace (nth (length r) (q ++ [i; k]) 0%nat) with i by (rewrite app_nth2 by lia; rewrite Lq, Nat.sub_diag; reflexivity). cbn [nth].
      assert (forall f g : C -> R, rsum j (fun l => f (bget (matrices_last a) (q ++ [i; l])) * g (bget (matrices_last b) (q ++ [l; k])))%R
        = rsum j (fun l => f (bget a (i :: l :: q)) * g (bget b (l :: k :: q)))%R) as Hs.
      { intros f g. apply rsum_ext. intros l Hl. rewrite (last_element a m j s), (last_element b j n t) by (assumption || congruence). reflexivity. }
      rewrite (Hs fst fst), (Hs snd snd), (Hs fst snd), (Hs snd fst). apply product_parts.
  Qed.
End Products.
Lemma same_refl a : same_array a a.
Proof. split; reflexivity. Qed.
Lemma same_result_refl x : same_result x x.
Proof. destruct x; [apply same_refl|exact I]. Qed.
Lemma torch_mul_same a b : (2 <= adim a)%nat -> adim a = adim b -> is_scalar a = true \/ is_scalar b = true \/ nth 1 (ashape a) 0%nat = nth 0 (ashape b) 0%nat ->
  same_result (mul a b) (torch_mul a b).
Proof.
  intros H2 Hl H. destruct (is_scalar a || is_scalar b) eqn:E.
  - unfold mul, torch_mul. rewrite E. apply same_result_refl.
  - apply orb_false_iff in E as [E1 E2]. destruct H as [H|[H|H]]; try congruence. unfold adim in *.
    destruct (ashape a) as [|m [|j s]] eqn:Ea; cbn in H2; try lia. destruct (ashape b) as [|j' [|n t]] eqn:Eb; cbn in Hl; try lia. cbn in H. subst j'.
    apply (torch_product a b m j n s t); try assumption; [cbn in Hl; congruence|]. rewrite E1, E2. reflexivity.
Qed.

(** ** Products with a destination *)
Lemma bdim_comm m n : bdim m n = bdim n m.
Proof. unfold bdim. destruct (Nat.eqb_spec m n) as [->|H]; [rewrite Nat.eqb_refl; reflexivity|]. destruct (Nat.eqb_spec n m); [congruence|]. destruct (Nat.eqb_spec m 1), (Nat.eqb_spec n 1); congruence. Qed.
Lemma bzip_comm s t : bzip s t = bzip t s.
Proof. revert t. induction s as [|m s IH]; intros [|n t]; cbn; try reflexivity. rewrite bdim_comm, IH. reflexivity. Qed.
Lemma bshape_comm s t : bshape s t = bshape t s.
Proof. unfold bshape. rewrite (Nat.max_comm (length t)). apply bzip_comm. Qed.
Lemma in_place_product a b c : abin Cmult a b = Ok c -> ashape c = ashape b -> exists r, in_place a b = Ok r /\ same_array c r.
Proof.
  unfold in_place, abin. rewrite (bshape_comm (ashape b)). destruct (bshape (ashape a) (ashape b)) as [r|]; [|discriminate]. intros [= <-] H. cbn [ashape] in H. subst r. cbn [bind ashape].
  destruct (list_eq_dec _ _ _) as [_|N]; [|congruence]. eexists. split; [reflexivity|]. split; [reflexivity|]. intros p _. cbn [aget]. apply Cmult_comm.
Qed.
Lemma into_right a b c : mul a b = Ok c -> ashape c = ashape b -> exists r, mul_into a b b = Ok (r, r) /\ same_array c r.
Proof.
  unfold mul, mul_into. destruct (is_scalar a || is_scalar b).
  - intros H1 H2. destruct (in_place_product a b c H1 H2) as (r & -> & H). exists r. split; [reflexivity|exact H].
  - intros -> H. cbn [bind]. destruct (list_eq_dec _ _ _) as [_|N]; [|congruence]. exists c. split; [reflexivity|apply same_refl].
Qed.
Lemma torch_into_right a b c : (2 <= adim a)%nat -> adim a = adim b -> is_scalar a = true \/ is_scalar b = true \/ nth 1 (ashape a) 0%nat = nth 0 (ashape b) 0%nat ->
  mul a b = Ok c -> ashape c = ashape b -> exists r, torch_mul_into a b b = Ok (r, if is_scalar a || is_scalar b then r else b) /\ same_array c r.
Proof.
  intros H2 Hl Hj. pose proof (torch_mul_same a b H2 Hl Hj) as HS. revert HS. unfold mul, torch_mul_into. destruct (is_scalar a || is_scalar b) eqn:E.
  - intros _ H3 H4. destruct (in_place_product a b c H3 H4) as (r & -> & H). exists r. split; [reflexivity|exact H].
  - intros HS He _. rewrite He in HS. destruct (torch_mul a b) as [r|]; [|contradiction]. exists r. split; [reflexivity|exact HS].
Qed.

(** ** Assignments *)
Lemma zip_div_self t : Forall (fun n => 0 < n)%nat t -> zip Nat.mul t (zip Nat.div t t) = t.
Proof. induction 1 as [|n t Hn Ht IH]; [reflexivity|]. cbn. rewrite IH, Nat.div_same by lia. f_equal. lia. Qed.
Lemma torch_assign_same v gs a : Forall (fun n => 0 < n)%nat gs -> (adim a <= length gs + 2)%nat ->
  same_result (assign v gs (field_shape v gs) a) (torch_assign gs (field_shape v gs) a).
Proof.
  intros Hg Ha. destruct (tmf_form (length gs) a) as (m & k & s & Hb & Hmk & Hs). specialize (Hs Ha).
  unfold assign, torch_assign. cbv zeta. set (b := to_matrix_field (length gs) a) in *. fold (field_shape v gs).
  assert (adim b = length gs + 2)%nat as Lb by (unfold adim; rewrite Hb; cbn; lia). rewrite Lb, Nat.eqb_refl.
  replace (length gs + 2 - length gs)%nat with 2%nat by lia. replace (2 - 2)%nat with 0%nat by lia.
  replace (length (field_shape v gs) =? length gs + 2)%nat with true by (symmetry; apply Nat.eqb_eq; unfold field_shape; cbn; lia).
  destruct (list_eq_dec Nat.eq_dec (skipn 2 (ashape b)) gs) as [Es|]; [|apply same_result_refl].
  rewrite Hb in Es |- *. cbn [skipn] in Es. subst s. cbn [nth]. set (nv := if v then 3%nat else 1%nat). assert (nv = 1 \/ nv = 3)%nat as Hnv by (unfold nv; destruct v; auto).
  destruct (Nat.eqb_spec m nv) as [->|Hm]; cbn [negb]; [apply same_result_refl|].
  change (field_shape v gs) with (nv :: 1%nat :: gs). cbn [zip].
  rewrite !fill_same by (unfold adim; cbn [tile ashape]; rewrite ?Hb; cbn [zip length]; rewrite ?zip_length; rewrite ?zip_length; reflexivity).
  cbn [tile ashape]. rewrite Hb. cbn [zip fits_in]. rewrite (zip_div_self gs Hg). rewrite fits_refl, !andb_true_r.
  assert (m * (nv / m) =? nv = (m =? 1))%nat as E1.
  { destruct m as [|[|m]]; [apply Nat.eqb_neq; cbn; lia|rewrite Nat.div_1_r, Nat.mul_1_l, !Nat.eqb_refl; reflexivity|]. apply Nat.eqb_neq.
    destruct Hnv as [E|E]; rewrite E in *; [rewrite Nat.div_small by lia; lia|]. destruct m as [|[|m]]; [cbn; lia|lia|]. rewrite Nat.div_small by lia. lia. }
  assert (m * (nv / m) =? 1 = (m =? 1) && (nv =? 1))%nat as E2.
  { destruct m as [|[|m]]; [reflexivity|rewrite Nat.div_1_r, Nat.mul_1_l; reflexivity|]. apply Nat.eqb_neq. destruct (nv / Datatypes.S (Datatypes.S m))%nat; lia. }
  assert (k * (1 / k) =? 1 = (k =? 1))%nat as E3.
  { destruct k as [|[|k]]; [reflexivity|reflexivity|]. rewrite Nat.div_small by lia. apply Nat.eqb_neq. lia. }
  rewrite E1, E2, E3. rewrite (proj2 (Nat.eqb_neq m nv) Hm). cbn [orb].
  destruct (Nat.eqb_spec m 1) as [->|]; [|exact I]. replace (true || true && (nv =? 1)%nat) with true by (destruct (nv =? 1)%nat; reflexivity). cbn [andb].
  rewrite orb_diag. destruct (Nat.eqb_spec k 1) as [->|]; cbn [orb]; [|exact I].
  split; [reflexivity|]. cbn [ashape aget]. intros p Hp. inversion Hp as [|? c ? p1 Hc Hp1]; subst. inversion Hp1 as [|? z ? q Hz Hq]; subst. assert (z = 0)%nat as -> by lia.
  pose proof (inside_length _ _ Hq) as Lq. rewrite !bget_same by (unfold adim; cbn [tile ashape]; rewrite ?Hb; cbn [zip length]; rewrite ?zip_length; rewrite ?zip_length; congruence).
  unfold element. cbn [tile ashape aget]. rewrite Hb. cbn [zip clip Nat.eqb Nat.mul]. rewrite (zip_div_self gs Hg), (inside_clip gs q Hq), (inside_mod gs q Hq). reflexivity.
Qed.
Lemma torch_assign_E_same v gs k E : Forall (fun n => 0 < n)%nat gs -> (forall x, times_square E k = Ok x -> adim (asarray x) <= length gs + 2)%nat ->
  same_result (assign_E v gs k E) (torch_assign_E v gs k E).
Proof.
  intros Hg Hd. unfold assign_E, torch_assign_E. destruct (times_square E k) as [x|]; [|exact I]. cbn [bind]. apply torch_assign_same; [exact Hg|]. apply Hd. reflexivity.
Qed.
Lemma torch_source_same v gs ai beta o s : Forall (fun n => 0 < n)%nat gs -> (adim (asarray s) <= length gs + 2)%nat -> match o with Some a => ashape a = field_shape v gs | None => True end ->
  same_result (assign_source v gs ai beta o s) (torch_assign_source gs ai beta o s).
Proof.
  intros Hg Hd Ho. unfold assign_source, torch_assign_source. destruct o as [a|].
  - rewrite Ho. apply torch_assign_same; [exact Hg|]. change (adim (amap _ ?x)) with (adim x). rewrite tmf_length. lia.
  - unfold mul, torch_mul. change (is_scalar (number _)) with true. rewrite orb_true_r. apply same_result_refl.
Qed.

(** ** Roots *)
Lemma rinsert_first x l : List.Forall (fun y => x <= y)%R l -> rinsert x l = x :: l.
Proof. intros H. destruct H as [|y l Hy H]; [reflexivity|]. cbn. unfold Rleb. destruct (Rle_dec x y); [reflexivity|contradiction]. Qed.
Lemma insert_real x l : StronglySorted cle l -> map fst (insert x l) = rinsert (fst x) (map fst l).
Proof.
  induction 1 as [|y l Hl IH Hy]; [reflexivity|]. cbn [insert map rinsert]. unfold cleb, Rltb, Rleb.
  destruct (Rlt_dec (fst x) (fst y)) as [H|H]; cbn [orb map].
  - destruct (Rle_dec (fst x) (fst y)); [reflexivity|lra].
  - destruct (Req_EM_T (fst x) (fst y)) as [E|E].
    + destruct (Rle_dec (fst x) (fst y)); [|lra]. destruct (Rle_dec (snd x) (snd y)); cbn [map]; [reflexivity|].
      rewrite IH, rinsert_first; [congruence|]. apply Forall_map. eapply Forall_impl; [|exact Hy]. intros z Hz. cbv beta in Hz. rewrite E. destruct Hz as [Hz|[Hz _]]; lra.
    + destruct (Rle_dec (fst x) (fst y)); [lra|]. cbn [map]. rewrite IH. reflexivity.
Qed.
Lemma csort_real l : map fst (csort l) = rsort (map fst l).
Proof. induction l as [|x l IH]; [reflexivity|]. cbn [csort fold_right map rsort]. rewrite insert_real by apply csort_sorted. fold (csort l). rewrite IH. reflexivity. Qed.
Definition real_parts (l : list (option C)) : list (option C) := map (option_map (fun z : C => RtoC (fst z))) l.
Lemma torch_sort_real l : torch_sort l = real_parts (nan_sort l).
Proof.
  unfold torch_sort, real_parts, nan_sort. rewrite map_app. f_equal.
  - rewrite <- csort_real, !map_map. reflexivity.
  - induction (length l - length (values l))%nat as [|n IH]; [reflexivity|]. cbn. rewrite <- IH. reflexivity.
Qed.
Lemma torch_roots_real eps l : torch_roots_of eps l = rmap real_parts (roots_of eps l).
Proof.
  unfold torch_roots_of, roots_of, remove_roots. destruct (add_roots eps l) as [l' k]. cbv zeta.
  destruct l' as [|c0 [|c1 [|c2 [|c3 [|c4 l']]]]]; try reflexivity; rewrite torch_sort_real; reflexivity.
Qed.
