(** Degenerate polynomials, order of the roots, and eigenvalues. *)
From Coq Require Import Reals List Arith Bool Lra Lia Permutation Sorted.
Require Import Verif.Base Verif.Cplx Verif.CSum Verif.Modes_Model Verif.Roots_Model Verif.Roots_Spec Verif.Roots_Formulas.
From Coquelicot Require Import Complex.
Import ListNotations.
Local Open Scope R_scope.
Local Open Scope C_scope.

(** ** Sorting *)
Lemma cleb_spec x y : cleb x y = true <-> cle x y.
Proof.
  unfold cleb, cle, Rltb, Rleb. destruct (Rlt_dec (fst x) (fst y)), (Req_EM_T (fst x) (fst y)), (Rle_dec (snd x) (snd y)); cbn; split; intros; try discriminate; try reflexivity; try (left; lra); try (right; lra);
    destruct H as [H|[H1 H2]]; lra.
Qed.
Lemma cle_total x y : cle x y \/ cle y x.
Proof. unfold cle. destruct (Rtotal_order (fst x) (fst y)) as [?|[?|?]]; [left; left; assumption| |right; left; assumption]. destruct (Rle_dec (snd x) (snd y)); [left|right]; right; split; lra. Qed.
Lemma cle_trans x y z : cle x y -> cle y z -> cle x z.
Proof. unfold cle. intros [H|[H1 H2]] [K|[K1 K2]]; [left|left|left|right]; lra. Qed.
Lemma insert_permutation x l : Permutation (x :: l) (insert x l).
Proof. induction l as [|y l IH]; cbn [insert]; [reflexivity|]. destruct (cleb x y); [reflexivity|]. rewrite perm_swap. apply perm_skip, IH. Qed.
Lemma csort_permutation l : Permutation l (csort l).
Proof. induction l as [|x l IH]; [reflexivity|]. cbn [csort fold_right]. rewrite <- insert_permutation. apply perm_skip, IH. Qed.
Lemma insert_sorted x l : StronglySorted cle l -> StronglySorted cle (insert x l).
Proof.
  induction 1 as [|y l S IH F]; cbn [insert]; [repeat constructor|]. destruct (cleb x y) eqn:E.
  - apply cleb_spec in E. constructor; [constructor; assumption|]. constructor; [exact E|]. eapply Forall_impl; [|exact F]. intros z. apply cle_trans, E.
  - assert (cle y x) as K by (destruct (cle_total x y) as [K|K]; [apply cleb_spec in K; congruence|exact K]). constructor; [exact IH|].
    apply (Permutation_Forall (insert_permutation x l)). constructor; assumption.
Qed.
Lemma csort_sorted l : StronglySorted cle (csort l).
Proof. induction l as [|x l IH]; [constructor|]. apply insert_sorted, IH. Qed.
Lemma nan_sort_spec R V h : values R = V -> length R = (length V + h)%nat -> nan_sort R = map Some (csort V) ++ repeat None h.
Proof. intros <- L. unfold nan_sort. do 2 f_equal. lia. Qed.

(** ** Removing roots *)
Lemma remove_zeros_length eps X k : length (fst (remove_zeros eps X k)) = length X.
Proof. induction X as [|x X IH]; cbn [remove_zeros]; [reflexivity|]. destruct (remove_zeros eps X k) as [R k']. cbn [fst] in IH. destruct (negb _ && _); cbn; rewrite IH; reflexivity. Qed.
Lemma remove_zeros_none eps X : remove_zeros eps X 0 = (map Some X, 0%nat).
Proof. induction X as [|x X IH]; cbn [remove_zeros]; [reflexivity|]. rewrite IH. rewrite andb_false_r. reflexivity. Qed.
Lemma values_some X : values (map Some X) = X.
Proof. induction X as [|x X IH]; [reflexivity|]. change (values (map Some (x :: X))) with (x :: values (map Some X)). rewrite IH. reflexivity. Qed.
Lemma remove_zeros_spec eps X k : let '(R, k') := remove_zeros eps X k in
  exists D, Permutation X (values R ++ D) /\ (length D + k' = k)%nat /\ Forall (fun z => is_significant eps z = false) D /\
    ((0 < k')%nat -> Forall (fun z => is_significant eps z = true) (values R)).
Proof.
  induction X as [|x X IH]; cbn [remove_zeros]; [exists []; repeat split; constructor|]. destruct (remove_zeros eps X k) as [R k']. destruct IH as (D & P & L & F & G).
  destruct (is_significant eps x) eqn:E; cbn [negb andb].
  - exists D. cbn [values flat_map app]. fold (values R). repeat split; try assumption; [apply perm_skip, P|]. intros K. constructor; [exact E|apply G, K].
  - destruct (Nat.ltb_spec 0 k') as [K|K].
    + exists (x :: D). cbn [values flat_map app]. fold (values R). repeat split.
      * rewrite P. apply Permutation_middle.
      * cbn [length]. lia.
      * constructor; assumption.
      * intros _. apply G, K.
    + exists D. cbn [values flat_map app]. fold (values R). repeat split; try assumption; [apply perm_skip, P|]. intros. lia.
Qed.
Definition is_zero (z : C) : bool := if Req_EM_T (Cmod z) 0 then true else false.
Lemma is_zero_spec z : is_zero z = true <-> z = 0.
Proof. unfold is_zero. destruct (Req_EM_T (Cmod z) 0) as [E|N]; split; intros H; try reflexivity; try discriminate; [apply Cmod_eq_0, E|]. rewrite H, Cmod_0 in N. contradiction. Qed.
Lemma filter_length_permutation {A} (f : A -> bool) l l' : Permutation l l' -> length (filter f l) = length (filter f l').
Proof. induction 1; cbn; try congruence; [destruct (f x); cbn; congruence|destruct (f x), (f y); reflexivity]. Qed.
Lemma filter_zero_repeat k : filter is_zero (repeat (RtoC 0) k) = repeat (RtoC 0) k.
Proof. induction k as [|k IH]; [reflexivity|]. cbn [repeat filter]. assert (is_zero 0 = true) as -> by (apply is_zero_spec; reflexivity). rewrite IH. reflexivity. Qed.
Lemma filter_length_le {A} (f : A -> bool) l : (length (filter f l) <= length l)%nat.
Proof. induction l as [|x l IH]; cbn; [lia|]. destruct (f x); cbn; lia. Qed.
Lemma significant_nonzero eps z : (0 < eps)%R -> is_significant eps z = true -> is_zero z = false.
Proof. intros He H. apply significant_spec in H. unfold is_zero. destruct (Req_EM_T (Cmod z) 0) as [E|N]; [|reflexivity]. rewrite E in H. pose proof (sqrt_lt_R0 _ He). lra. Qed.

(** A polynomial x^k P(x), of which the non-zero roots are significant: the k zeros are removed. *)
Lemma remove_added eps X k X' : (0 < eps)%R -> Permutation X (repeat (RtoC 0) k ++ X') -> (forall x, In x X' -> x <> 0 -> is_significant eps x = true) ->
  exists roots, remove_roots eps X k = map Some roots ++ repeat None k /\ StronglySorted cle roots /\ Permutation roots X'.
Proof.
  intros He P H. pose proof (remove_zeros_spec eps X k) as S. pose proof (remove_zeros_length eps X k) as LR. unfold remove_roots. destruct (remove_zeros eps X k) as [R k']. cbn [fst] in *. destruct S as (D & PD & L & F & G).
  assert (k' = 0%nat) as K0.
  { destruct (Nat.eq_dec k' 0) as [E|N]; [exact E|exfalso]. specialize (G ltac:(lia)).
    pose proof (filter_length_permutation is_zero _ _ (Permutation_trans (Permutation_sym P) PD)) as Q. rewrite !filter_app, !app_length, filter_zero_repeat, repeat_length in Q.
    assert (filter is_zero (values R) = []) as V0. { clear -G He. induction (values R) as [|v V IH]; [reflexivity|]. inversion G; subst. cbn [filter]. rewrite (significant_nonzero eps v He) by assumption. apply IH. assumption. }
    rewrite V0 in Q. cbn in Q. pose proof (filter_length_le is_zero D). lia. }
  assert (D = repeat (RtoC 0) k) as ->.
  { replace k with (length D) by lia. assert (forall z, In z D -> z = 0) as Z.
    { intros z Hz. destruct (is_zero z) eqn:E; [apply is_zero_spec, E|exfalso]. rewrite Forall_forall in F. specialize (F z Hz).
      assert (In z (repeat (RtoC 0) k ++ X')) as I by (apply (Permutation_in z (Permutation_trans (Permutation_sym PD) P)), in_or_app; right; exact Hz).
      apply in_app_or in I as [I|I]; [apply repeat_spec in I; apply is_zero_spec in I; congruence|].
      rewrite (H z I) in F by (intros Q; apply is_zero_spec in Q; congruence). discriminate. }
    clear -Z. induction D as [|d D IH]; [reflexivity|]. cbn [length repeat]. rewrite <- IH by (intros; apply Z; right; assumption). rewrite (Z d) by (left; reflexivity). reflexivity. }
  exists (csort (values R)). split; [|split; [apply csort_sorted|]].
  - apply nan_sort_spec; [reflexivity|]. rewrite LR. rewrite (Permutation_length PD), app_length, repeat_length. reflexivity.
  - rewrite <- csort_permutation. assert (Permutation (repeat (RtoC 0) k ++ values R) (repeat (RtoC 0) k ++ X')) as Q.
    { rewrite Permutation_app_comm. rewrite <- PD. exact P. }
    apply Permutation_app_inv_l in Q. exact Q.
Qed.

(** ** Adding roots *)
Lemma last_app_nonempty {A} (l l' : list A) d : l' <> [] -> last (l ++ l') d = last l' d.
Proof.
  intros H. induction l as [|x l IH]; [reflexivity|]. cbn [app]. remember (l ++ l') as L. destruct L as [|y L]; [symmetry in HeqL; apply app_eq_nil in HeqL as [_ ?]; contradiction|]. rewrite <- IH. reflexivity.
Qed.
Lemma lower_spec eps l : lower_order eps l = true <-> (Cmod (last l (RtoC 0)) < 2 * eps)%R.
Proof. unfold lower_order, Rltb. destruct (Rlt_dec _ _); split; auto; discriminate. Qed.
Lemma firstn_S {A} (l : list A) m d : (m < length l)%nat -> firstn (Datatypes.S m) l = firstn m l ++ [nth m l d].
Proof. revert m. induction l as [|x l IH]; intros [|m] H; cbn in *; try lia; [reflexivity|]. rewrite <- IH by lia. reflexivity. Qed.
Lemma shift_app eps L x : (Cmod x < 2 * eps)%R -> shift_step eps (L ++ [x]) = RtoC 0 :: L /\ lower_order eps (L ++ [x]) = true.
Proof. intros H. unfold shift_step. assert (lower_order eps (L ++ [x]) = true) as -> by (apply lower_spec; rewrite last_last; exact H). rewrite removelast_last. auto. Qed.
Lemma repeat_cons_app {A} (x : A) n l : x :: repeat x n ++ l = repeat x (Datatypes.S n) ++ l.
Proof. reflexivity. Qed.
Section Added.
  Variables (eps : R) (low high : list C).
  Hypotheses (He : (0 < eps)%R) (Hh : Forall (fun c => (Cmod c < 2 * eps)%R) high).
  Lemma passes_high n : (n <= length high)%nat -> exists b, passes eps n (low ++ high) = (repeat (RtoC 0) n ++ low ++ firstn (length high - n) high, n, b) /\ ((0 < n)%nat -> b = true).
  Proof.
    induction n as [|n IH]; intros L.
    - exists false. rewrite Nat.sub_0_r, firstn_all. split; [reflexivity|lia].
    - destruct (IH ltac:(lia)) as (b & E & _). cbn [passes]. rewrite E. replace (length high - n)%nat with (Datatypes.S (length high - Datatypes.S n)) by lia.
      rewrite (firstn_S high _ 0) by lia. rewrite !app_assoc. set (x := nth _ high 0).
      assert (Cmod x < 2 * eps)%R as Hx by (rewrite Forall_forall in Hh; apply Hh, nth_In; lia). destruct (shift_app eps ((repeat (RtoC 0) n ++ low) ++ firstn (length high - Datatypes.S n) high) x Hx) as [-> ->].
      exists true. split; [|reflexivity]. rewrite <- !app_assoc. reflexivity.
  Qed.
  Hypotheses (Hl : low <> []) (Hc : (2 * eps <= Cmod (last low (RtoC 0)))%R).
  Lemma passes_low m : exists b, passes eps (length high + m) (low ++ high) = (repeat (RtoC 0) (length high) ++ low, length high, b) /\ ((0 < m)%nat -> b = false).
  Proof.
    induction m as [|m (b & E & _)].
    - rewrite Nat.add_0_r. destruct (passes_high (length high) ltac:(lia)) as (b & E & _). rewrite Nat.sub_diag, firstn_O, app_nil_r in E. exists b. split; [exact E|lia].
    - rewrite Nat.add_succ_r. cbn [passes]. rewrite E.
      assert (lower_order eps (repeat (RtoC 0) (length high) ++ low) = false) as Q. { unfold lower_order, Rltb. rewrite last_app_nonempty by exact Hl. destruct (Rlt_dec _ _); [lra|reflexivity]. }
      exists false. unfold shift_step. rewrite Q. auto.
  Qed.
  Lemma add_roots_spec : add_roots eps (low ++ high) = (repeat (RtoC 0) (length high) ++ low, length high).
  Proof.
    unfold add_roots. rewrite app_length. assert (0 < length low)%nat by (destruct low; [contradiction|cbn; lia]). replace (length low + length high)%nat with (length high + length low)%nat by lia.
    destruct (passes_low (length low)) as (b & -> & B). rewrite B by assumption. reflexivity.
  Qed.
End Added.
Lemma add_roots_all eps l : (0 < eps)%R -> Forall (fun c => (Cmod c < 2 * eps)%R) l -> (0 < length l)%nat -> add_roots eps l = (repeat (RtoC 0) (length l - 1) ++ [RtoC 1], length l).
Proof.
  intros He H L. unfold add_roots. destruct (passes_high eps [] l H (length l) (le_n _)) as (b & E & B). cbn [app] in E. rewrite E, (B L), Nat.sub_diag, firstn_O, app_nil_r. f_equal. f_equal.
  destruct (length l) as [|n]; [lia|]. replace (repeat (RtoC 0) (Datatypes.S n)) with (repeat (RtoC 0) n ++ [RtoC 0]) by (symmetry; apply repeat_cons). rewrite removelast_last. replace (Datatypes.S n - 1)%nat with n by lia. reflexivity.
Qed.

(** ** The function *)
Definition formula (eps : R) (l : list C) : list C :=
  match l with [c0; c1] => linear c0 c1 | [c0; c1; c2] => quadratic eps c0 c1 c2 | [c0; c1; c2; c3] => cubic eps c0 c1 c2 c3 | _ => [] end.
Lemma formula_spec eps l : (0 < eps)%R -> (2 <= length l <= 4)%nat -> last l (RtoC 0) <> 0 -> scaled eps l -> poly_of (last l (RtoC 0)) (formula eps l) = l.
Proof.
  intros He L H S. destruct l as [|c0 [|c1 [|c2 [|c3 [|]]]]]; cbn in L; try lia; cbn [last formula scaled] in *.
  - apply linear_roots, H.
  - apply quadratic_roots; assumption.
  - apply cubic_scaled_roots; assumption.
Qed.
Lemma roots_of_formula eps l l' k : add_roots eps l = (l', k) -> (2 <= length l' <= 4)%nat -> roots_of eps l = Ok (remove_roots eps (formula eps l') k).
Proof. intros E L. unfold roots_of. rewrite E. destruct l' as [|c0 [|c1 [|c2 [|c3 [|]]]]]; cbn in L; try lia; reflexivity. Qed.
Lemma product_root X x : In x X -> product_of X x = 0.
Proof. induction X as [|y X IH]; intros H; [contradiction|]. destruct H as [->|H]; cbn [product_of fold_right]; [ring|]. unfold product_of in IH. rewrite IH by exact H. ring. Qed.
Lemma has_roots_permutation l X Y : Permutation X Y -> poly_of (last l (RtoC 0)) X = l -> has_roots l Y.
Proof. intros P E. rewrite <- E. rewrite (poly_of_permutation _ _ _ P). apply poly_of_roots. Qed.

Theorem roots_found eps low high : (0 < eps)%R -> (2 <= length (low ++ high) <= 4)%nat -> low <> [] -> (2 * eps <= Cmod (last low (RtoC 0)))%R ->
  Forall (fun c => (Cmod c < 2 * eps)%R) high -> scaled eps (repeat (RtoC 0) (length high) ++ low) ->
  (high = [] \/ forall x : C, x <> 0 -> polynomial low x = 0 -> (sqrt eps < Cmod x)%R) ->
  exists roots, roots_of eps (low ++ high) = Ok (map Some roots ++ repeat None (length high)) /\ StronglySorted cle roots /\ has_roots low roots.
Proof.
  intros He L Hl Hc Hh S Hs. pose proof (add_roots_spec eps low high Hh Hl Hc) as E. set (l' := repeat (RtoC 0) (length high) ++ low) in *.
  assert (last l' (RtoC 0) = last low (RtoC 0)) as La by (apply last_app_nonempty, Hl). assert (last low (RtoC 0) <> 0) as C0. { intros F. rewrite F, Cmod_0 in Hc. lra. }
  assert (2 <= length l' <= 4)%nat as L' by (unfold l'; rewrite app_length in *; rewrite repeat_length; lia).
  rewrite (roots_of_formula eps _ _ _ E L'). pose proof (formula_spec eps l' He L' ltac:(rewrite La; exact C0) S) as F. rewrite La in F.
  destruct (zero_roots _ _ _ _ C0 F) as (X' & P & FX).
  destruct (Nat.eq_dec (length high) 0) as [H0|H0].
  - rewrite H0 in *. unfold remove_roots. rewrite remove_zeros_none. cbn [fst]. rewrite (nan_sort_spec _ _ 0 (values_some _)) by (rewrite map_length; lia).
    exists (csort (formula eps l')). split; [reflexivity|]. split; [apply csort_sorted|]. cbn [repeat app] in P. apply (has_roots_permutation low X'); [rewrite <- P; apply csort_permutation|exact FX].
  - destruct Hs as [Hs|Hs]; [rewrite Hs in H0; cbn in H0; lia|].
    destruct (remove_added eps _ _ X' He P) as (roots & E1 & E2 & E3).
    { intros x Hx Hx0. apply significant_spec, Hs; [exact Hx0|]. pose proof (poly_of_roots (last low (RtoC 0)) X' x) as Q. rewrite FX, product_root in Q by exact Hx. rewrite Q. ring. }
    exists roots. split; [rewrite E1; reflexivity|]. split; [exact E2|]. apply (has_roots_permutation low X'); [symmetry; exact E3|exact FX].
Qed.
Theorem roots_all_negligible eps l : (0 < eps)%R -> (2 <= length l <= 4)%nat -> Forall (fun c => (Cmod c < 2 * eps)%R) l -> roots_of eps l = Ok (repeat None (length l - 1)).
Proof.
  intros He L H. pose proof (add_roots_all eps l He H ltac:(lia)) as E. set (n := (length l - 1)%nat) in *. set (l' := repeat (RtoC 0) n ++ [RtoC 1]) in *.
  assert (last l' (RtoC 0) = 1) as La by apply last_last. assert (length l' = Datatypes.S n) as Ln by (unfold l'; rewrite app_length, repeat_length; cbn; lia). assert (RtoC 1 <> 0) as N1 by (apply RtoC_neq; lra).
  rewrite (roots_of_formula eps _ _ _ E) by lia. assert (scaled eps l') as S.
  { unfold l', n. destruct l as [|c0 [|c1 [|c2 [|c3 [|]]]]]; cbn in L; try lia; cbn [length Nat.sub repeat app scaled]; [exact I|left; reflexivity|]. left.
    unfold centred_q, centred_r. split; unfold Cdiv; ring. }
  pose proof (formula_spec eps l' He ltac:(lia) ltac:(rewrite La; exact N1) S) as F. rewrite La in F. destruct (zero_roots _ _ _ _ N1 F) as (X' & P & FX).
  assert (X' = []) as -> by (apply length_zero_iff_nil; pose proof (length_poly_of 1 X') as Q; rewrite FX in Q; cbn in Q; lia). rewrite app_nil_r in P.
  pose proof (remove_zeros_spec eps (formula eps l') (length l)) as R. pose proof (remove_zeros_length eps (formula eps l') (length l)) as LR. unfold remove_roots. destruct (remove_zeros eps (formula eps l') (length l)) as [Rs k']. cbn [fst] in *. destruct R as (D & PD & LD & FD & G).
  pose proof (Permutation_length P) as LP. rewrite repeat_length in LP. pose proof (Permutation_length PD) as LPD. rewrite app_length in LPD.
  assert (values Rs = []) as V0.
  { specialize (G ltac:(lia)). assert (forall v, In v (values Rs) -> False) as K; [|destruct (values Rs) as [|v V]; [reflexivity|exfalso; apply (K v); left; reflexivity]].
    intros v Hv. assert (In v (repeat (RtoC 0) n)) as I by (apply (Permutation_in v (Permutation_trans (Permutation_sym PD) P)), in_or_app; left; exact Hv). apply repeat_spec in I. rewrite Forall_forall in G. specialize (G v Hv).
    apply significant_nonzero in G; [|exact He]. apply is_zero_spec in I. congruence. }
  rewrite (nan_sort_spec Rs [] n V0) by (cbn; lia). reflexivity.
Qed.
(** Close to the roots whatever the scale, for third order. *)
Theorem cubic_roots_near eps (c0 c1 c2 c3 : C) : (0 < eps)%R -> (2 * eps <= Cmod c3)%R ->
  exists roots exact, roots_of eps [c0; c1; c2; c3] = Ok (map Some roots) /\ StronglySorted cle roots /\ has_roots [c0; c1; c2; c3] exact /\ Forall2 (fun x y => (Cmod (x - y)%C <= 2 * sqrt eps)%R) roots exact.
Proof.
  intros He H3. assert (c3 <> 0) as N by (intros F; rewrite F, Cmod_0 in H3; lra).
  pose proof (add_roots_spec eps [c0; c1; c2; c3] [] (Forall_nil _) ltac:(discriminate) H3) as E. cbn [app length repeat] in E. rewrite (roots_of_formula eps _ _ _ E) by (cbn; lia). cbn [formula].
  destruct (cubic_near_roots eps c0 c1 c2 c3 He N) as (Y & FY & D). unfold remove_roots. rewrite remove_zeros_none. cbn [fst]. rewrite (nan_sort_spec _ _ 0 (values_some _)) by (rewrite map_length; lia). cbn [repeat]. rewrite app_nil_r.
  destruct (Permutation_Forall2 (csort_permutation _) D) as (Y' & PY & D'). exists (csort (cubic eps c0 c1 c2 c3)), Y'. split; [reflexivity|]. split; [apply csort_sorted|]. split; [|exact D'].
  apply (has_roots_permutation [c0; c1; c2; c3] Y); [exact PY|exact FY].
Qed.
Lemma evaluate_spec l x : evaluate_polynomial l x = polynomial l x.
Proof.
  rewrite polynomial_horner. unfold evaluate_polynomial. rewrite <- fold_left_rev_right, rev_involutive. induction l as [|c l IH]; [reflexivity|]. cbn [fold_right horner]. rewrite IH. ring.
Qed.
Lemma coefficients_kept eps l : (0 < eps)%R -> (2 * eps <= Cmod (last l (RtoC 0)))%R -> coefficients_after eps l = l.
Proof.
  intros He H. unfold coefficients_after. destruct (length l <? 2)%nat; [reflexivity|]. destruct l as [|c l]; [reflexivity|].
  pose proof (add_roots_spec eps (c :: l) [] (Forall_nil _) ltac:(discriminate) H) as E. rewrite app_nil_r in E. rewrite E. reflexivity.
Qed.
