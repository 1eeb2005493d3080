(** Proofs about matrices, their quarters and caches. *)
From Coq Require Import Reals Lra List Arith Bool ZArith Lia.
Require Import Verif.Base Verif.Cplx Verif.CSum Verif.Matrix_Model Verif.Matrix_Spec.
Import ListNotations.
Local Open Scope R_scope.
Local Open Scope C_scope.

(** ** Products and arrays *)
Lemma csum_basis n (f : nat -> C) j : (j < n)%nat -> csum n (fun k => f k * basis j k) = f j.
Proof.
  intros H. rewrite <- (csum_delta n j f H). apply csum_ext. intros i _. unfold basis. destruct (i =? j)%nat; ring.
Qed.
Lemma matmat_spec M a cols : multiplies_as M a -> exists ws, matmat M cols = Ok ws /\
  Forall2 (fun v w => same (mrows M) w (fun i => csum (mcols M) (fun j => a i j * v j))) cols ws.
Proof.
  intros H. induction cols as [|v l (ws & IH1 & IH2)]; [exists []; split; [reflexivity|constructor]|].
  destruct (H v) as (w & H1 & H2). exists (w :: ws). cbn. rewrite H1. cbn. rewrite IH1. cbn. split; [reflexivity|]. constructor; assumption.
Qed.
Lemma Forall2_nth {A B} (P : A -> B -> Prop) l m k a b : Forall2 P l m -> (k < length l)%nat -> P (nth k l a) (nth k m b).
Proof. intros H. revert k. induction H as [|x y l m Hx H IH]; intros [|k] Hk; cbn in *; try lia; [exact Hx|apply IH; lia]. Qed.
Lemma Forall2_len {A B} (P : A -> B -> Prop) l m : Forall2 P l m -> length l = length m.
Proof. induction 1; cbn; congruence. Qed.

Lemma literal_multiplies m n a : multiplies_as {| mrows := m; mcols := n; mcontents := Array a |} a.
Proof. intros v. eexists. split; [reflexivity|]. intros i _. reflexivity. Qed.
Lemma array_of M a : multiplies_as M a -> exists b, to_array M = Ok b /\ forall i j, (i < mrows M)%nat -> (j < mcols M)%nat -> b i j = a i j.
Proof.
  intros H. destruct (matmat_spec M a (map basis (seq 0 (mcols M))) H) as (ws & H1 & H2).
  assert (forall i j, (i < mrows M)%nat -> (j < mcols M)%nat -> nth j ws zero_vec i = a i j) as Hw.
  { intros i j Hi Hj. pose proof (Forall2_nth _ _ _ j zero_vec zero_vec H2) as E. rewrite map_length, seq_length in E. specialize (E Hj). cbv beta in E.
    rewrite E by exact Hi. rewrite (nth_indep _ zero_vec (basis 0)) by (rewrite map_length, seq_length; exact Hj). rewrite map_nth, seq_nth by exact Hj. cbn [Nat.add].
    apply csum_basis. exact Hj. }
  unfold to_array. destruct (mcontents M) as [b|f|] eqn:E.
  - exists b. split; [reflexivity|]. intros i j Hi Hj. destruct (H (basis j)) as (w & H3 & H4). unfold matvec in H3. rewrite E in H3. injection H3 as <-.
    specialize (H4 i Hi). cbv beta in H4. rewrite !csum_basis in H4 by exact Hj. exact H4.
  - rewrite H1. cbn [rmap]. eexists. split; [reflexivity|]. exact Hw.
  - rewrite H1. cbn [rmap]. eexists. split; [reflexivity|]. exact Hw.
Qed.
Lemma adjoint_inner M a : multiplies_as M a -> exists b, adjoint_array M = Ok b /\ forall x y w, matvec M y = Ok w ->
  inner (mrows M) x w = inner (mcols M) (fun i => csum (mrows M) (fun j => b i j * x j)) y.
Proof.
  intros H. destruct (array_of M a H) as (b & H1 & H2). unfold adjoint_array. rewrite H1. cbn [rmap]. eexists. split; [reflexivity|].
  intros x y w Hw. destruct (H y) as (w' & H3 & H4). rewrite H3 in Hw. injection Hw as <-. unfold inner.
  rewrite (csum_ext _ _ (fun i => csum (mcols M) (fun j => Cconj (x i) * (b i j * y j)))).
  2:{ intros i Hi. rewrite (H4 i Hi), <- csum_scal. apply csum_ext. intros j Hj. rewrite H2 by assumption. reflexivity. }
  rewrite csum_swap. apply csum_ext. intros j Hj. rewrite csum_conj, <- csum_scal_r. apply csum_ext. intros i Hi.
  rewrite Cconj_mult, Cconj_conj. ring.
Qed.

(** ** Indices *)
Lemma position_range n z i : position n z = Ok i -> (i < n)%nat /\ (Z.of_nat i = z \/ Z.of_nat i = z + Z.of_nat n)%Z.
Proof.
  unfold position. destruct (Z.ltb_spec z 0); cbv zeta.
  - destruct (Z.leb_spec 0 (z + Z.of_nat n)%Z); [|discriminate]. destruct (Z.ltb_spec (z + Z.of_nat n) (Z.of_nat n))%Z; [|discriminate]. cbn. intros [= <-]. lia.
  - destruct (Z.leb_spec 0 z); [|discriminate]. destruct (Z.ltb_spec z (Z.of_nat n)); [|discriminate]. cbn. intros [= <-]. lia.
Qed.
Lemma select_range n s l : select n s = Ok l -> Forall (fun i => i < n)%nat l.
Proof.
  destruct s as [z| |zs]; cbn.
  - destruct (position n z) as [i|] eqn:E; [|discriminate]. intros [= <-]. constructor; [apply (position_range n z i E)|constructor].
  - intros [= <-]. apply Forall_forall. intros i Hi. apply in_seq in Hi. lia.
  - revert l. induction zs as [|z zs IH]; intros l H; cbn in H; [injection H as <-; constructor|].
    destruct (position n z) as [i|] eqn:E; [|discriminate]. cbn in H. destruct (positions n zs) as [r|]; [|discriminate]. cbn in H. injection H as <-.
    constructor; [apply (position_range n z i E)|apply IH; reflexivity].
Qed.
Lemma getitem_square M a row col is js : multiplies_as M a -> mrows M = mcols M -> select (mrows M) row = Ok is -> select (mcols M) col = Ok js -> js <> [] ->
  getitem M row col = Ok (map (fun i => map (fun j => a i j) js) is).
Proof.
  intros H Hs Hr Hc Hne. unfold getitem. rewrite <- Hs in Hc. rewrite Hc. cbn [bind]. rewrite Hs, Nat.eqb_refl, <- Hs.
  assert (product M (map basis js) = matmat M (map basis js)) as -> by (destruct js; [contradiction|reflexivity]). clear Hne.
  destruct (matmat_spec M a (map basis js) H) as (ws & H1 & H2). rewrite H1. cbn [bind]. rewrite Hr. cbn [bind]. f_equal.
  pose proof (select_range _ _ _ Hr) as Ri. pose proof (select_range _ _ _ Hc) as Rj. clear Hr Hc H1.
  apply map_ext_in. intros i Hi. rewrite Forall_forall in Ri. specialize (Ri i Hi). clear Hi.
  revert ws H2. induction js as [|j js IH]; intros ws H2; inversion H2 as [|? w ? ws' Hw H2']; subst; [reflexivity|].
  inversion Rj as [|? ? Rj1 Rj2]; subst. cbn [map]. rewrite (IH Rj2 ws' H2'). f_equal. rewrite (Hw i Ri). apply csum_basis. rewrite <- Hs. exact Rj1.
Qed.
Lemma getitem_no_column M row col : select (mrows M) col = Ok [] -> getitem M row col = Err ValueError.
Proof. intros Hc. unfold getitem. rewrite Hc. cbn [bind map product]. destruct (mrows M =? mcols M)%nat; reflexivity. Qed.
Lemma getitem_rectangular M row col js : mrows M <> mcols M -> select (mrows M) col = Ok js -> getitem M row col = Err ValueError.
Proof. intros H Hc. unfold getitem. rewrite Hc. cbn [bind]. destruct (Nat.eqb_spec (mrows M) (mcols M)); [contradiction|reflexivity]. Qed.

(** ** ufuncs *)
Lemma ufunc_first {A} (f : list (nat -> nat -> C) -> A) M a rest d : to_array M = Ok a -> forallb is_arr rest = true ->
  call_ufunc (S (S d)) f (OMatrix M :: rest) = Some (Ok (f (a :: map arr rest))).
Proof.
  intros Ha Hr. cbn [call_ufunc first_matrix]. rewrite Ha. cbn [tl first_matrix].
  assert (first_matrix rest = None) as ->; [|reflexivity]. clear - Hr. induction rest as [|[M|a'] rest IH]; cbn in *; [reflexivity|discriminate|apply IH; exact Hr].
Qed.
Lemma ufunc_later {A} (f : list (nat -> nat -> C) -> A) x rest M a d : first_matrix rest = Some M -> to_array M = Ok a -> first_matrix [x] = None ->
  call_ufunc d f (x :: rest) = None.
Proof.
  intros Hr Ha. revert x. induction d as [|d IH]; intros x Hx; [reflexivity|]. cbn [call_ufunc]. destruct x as [M'|b]; [discriminate Hx|].
  cbn [first_matrix]. rewrite Hr, Ha. cbn [tl]. apply IH. reflexivity.
Qed.

(** ** Quarters *)
Lemma csum_split h k f : csum (h + k) f = csum h f + csum k (fun i => f (i + h)%nat).
Proof.
  induction k as [|k IH]; [rewrite Nat.add_0_r; cbn; ring|]. rewrite Nat.add_succ_r. cbn [csum]. rewrite IH, (Nat.add_comm k h). ring.
Qed.
Definition off (b : bool) (h : nat) : nat := if b then h else 0%nat.
Lemma quarter_block M a h bo bi : multiplies_as M a -> mrows M = (h + h)%nat -> mcols M = (h + h)%nat ->
  exists Q, quarter M bo bi = Ok Q /\ mrows Q = h /\ mcols Q = h /\ multiplies_as Q (fun i j => a (i + off bo h)%nat (j + off bi h)%nat).
Proof.
  intros H Hr Hc. unfold quarter. rewrite Hr. assert (Nat.odd (h + h) = false) as ->.
  { rewrite <- Nat.negb_even, Bool.negb_false_iff. apply Nat.even_spec. exists h. lia. }
  assert ((h + h) / 2 = h)%nat as E by (replace (h + h)%nat with (h * 2)%nat by lia; apply Nat.div_mul; lia). rewrite E. cbv zeta.
  eexists. split; [reflexivity|]. cbn [mrows mcols]. split; [reflexivity|]. split; [reflexivity|]. intros v. unfold matvec at 1. cbn [mcontents mrows mcols].
  match goal with |- context [matvec M ?x] => destruct (H x) as (w & H1 & H2); rewrite H1; set (y := x) in * end. cbn [rmap].
  eexists. split; [reflexivity|]. intros i Hi.
  assert (forall k, (k < h + h)%nat -> w k = csum h (fun j => a k (j + off bi h)%nat * v j)) as K.
  { intros k Hk. rewrite H2 by lia. rewrite Hc, csum_split. unfold y. destruct bi; cbn [off].
    - rewrite (csum_ext h _ (fun _ => 0)), csum_zero, Cplus_0_l.
      + apply csum_ext. intros j Hj. destruct (Nat.ltb_spec (j + h) h); [lia|]. f_equal. f_equal. lia.
      + intros j Hj. destruct (Nat.ltb_spec j h); [ring|lia].
    - rewrite (csum_ext h (fun i0 => _ (i0 + h)%nat * _) (fun _ => 0)), csum_zero, Cplus_0_r.
      + apply csum_ext. intros j Hj. rewrite Nat.add_0_r. destruct (Nat.ltb_spec j h); [reflexivity|lia].
      + intros j Hj. destruct (Nat.ltb_spec (j + h) h); [lia|ring]. }
  destruct bo; cbn [off]; [|rewrite Nat.add_0_r]; apply K; lia.
Qed.
Lemma quarter_odd M bo bi : Nat.Odd (mrows M) -> quarter M bo bi = Err TypeError.
Proof. intros H. unfold quarter. apply Nat.odd_spec in H. rewrite H. reflexivity. Qed.
Lemma stacked_product M a h p n w i : multiplies_as M a -> mrows M = (h + h)%nat -> mcols M = (h + h)%nat -> matvec M (stack h p n) = Ok w -> (i < h + h)%nat ->
  w i = csum h (fun j => a i j * p j) + csum h (fun j => a i (j + h)%nat * n j).
Proof.
  intros H Hr Hc Hw Hi. destruct (H (stack h p n)) as (w' & H1 & H2). rewrite H1 in Hw. injection Hw as <-. rewrite H2 by lia. rewrite Hc, csum_split. f_equal; apply csum_ext; intros j Hj; unfold stack.
  - destruct (Nat.ltb_spec j h); [reflexivity|lia].
  - destruct (Nat.ltb_spec (j + h) h); [lia|]. f_equal. f_equal. lia.
Qed.
Lemma quarters_act M a h : multiplies_as M a -> mrows M = (h + h)%nat -> mcols M = (h + h)%nat ->
  exists A B D E, forward_transmission M = Ok A /\ back_reflection M = Ok B /\ front_reflection M = Ok D /\ backward_transmission M = Ok E /\
  forall p n w, matvec M (stack h p n) = Ok w -> exists Ap Bn Dp En, matvec A p = Ok Ap /\ matvec B n = Ok Bn /\ matvec D p = Ok Dp /\ matvec E n = Ok En /\
    same (h + h) w (stack h (fun i => Ap i + Bn i) (fun i => Dp i + En i)).
Proof.
  intros H Hr Hc.
  destruct (quarter_block M a h false false H Hr Hc) as (A & A1 & A2 & A3 & A4). destruct (quarter_block M a h false true H Hr Hc) as (B & B1 & B2 & B3 & B4).
  destruct (quarter_block M a h true false H Hr Hc) as (D & D1 & D2 & D3 & D4). destruct (quarter_block M a h true true H Hr Hc) as (E & E1 & E2 & E3 & E4).
  exists A, B, D, E. do 4 (split; [assumption|]). intros p n w Hw.
  destruct (A4 p) as (Ap & P1 & P2). destruct (B4 n) as (Bn & P3 & P4). destruct (D4 p) as (Dp & P5 & P6). destruct (E4 n) as (En & P7 & P8).
  exists Ap, Bn, Dp, En. do 4 (split; [assumption|]). intros i Hi. rewrite (stacked_product M a h p n w i H Hr Hc Hw Hi). unfold stack.
  cbn [off] in *. destruct (Nat.ltb_spec i h).
  - rewrite P2, P4 by lia. rewrite A3, B3. f_equal; apply csum_ext; intros j Hj; rewrite ?Nat.add_0_r; reflexivity.
  - rewrite P6, P8 by lia. rewrite D3, E3. replace (i - h + h)%nat with i by lia. f_equal; apply csum_ext; intros j Hj; rewrite ?Nat.add_0_r; reflexivity.
Qed.
Lemma quarters_blocks M a h : multiplies_as M a -> mrows M = (h + h)%nat -> mcols M = (h + h)%nat ->
  exists FT BR FR BT,
    forward_transmission M = Ok FT /\ mrows FT = h /\ mcols FT = h /\ multiplies_as FT a /\
    back_reflection M = Ok BR /\ mrows BR = h /\ mcols BR = h /\ multiplies_as BR (fun i j => a i (j + h)%nat) /\
    front_reflection M = Ok FR /\ mrows FR = h /\ mcols FR = h /\ multiplies_as FR (fun i j => a (i + h)%nat j) /\
    backward_transmission M = Ok BT /\ mrows BT = h /\ mcols BT = h /\ multiplies_as BT (fun i j => a (i + h)%nat (j + h)%nat).
Proof.
  intros H1 H2 H3.
  destruct (quarter_block M a h false false H1 H2 H3) as (A & A1 & A2 & A3 & A4).
  destruct (quarter_block M a h false true H1 H2 H3) as (B & B1 & B2 & B3 & B4).
  destruct (quarter_block M a h true false H1 H2 H3) as (D & D1 & D2 & D3 & D4).
  destruct (quarter_block M a h true true H1 H2 H3) as (E & E1 & E2 & E3 & E4).
  assert (forall Q b b', (forall i j, b i j = b' i j) -> multiplies_as Q b -> multiplies_as Q b') as X.
  { intros Q b b' Hb HQ v. destruct (HQ v) as (w & W1 & W2). exists w. split; [exact W1|]. intros i Hi. rewrite (W2 i Hi). apply csum_ext. intros j _. rewrite Hb. reflexivity. }
  exists A, B, D, E. repeat (split; [assumption || (eapply X; [|eassumption]; intros i j; unfold off; rewrite ?Nat.add_0_r; reflexivity)|]). eapply X; [|eassumption]. reflexivity.
Qed.
Lemma array_of_basis M a : multiplies_as M a ->
  exists b, to_array M = Ok b /\ forall j, (j < mcols M)%nat -> exists w, matvec M (basis j) = Ok w /\ same (mrows M) w (fun i => b i j).
Proof.
  intros H. destruct (array_of M a H) as (b & B1 & B2). exists b. split; [exact B1|]. intros j Hj. destruct (H (basis j)) as (w & W1 & W2). exists w. split; [exact W1|].
  intros i Hi. rewrite (W2 i Hi), (B2 i j Hi Hj). unfold basis.
  rewrite (csum_ext _ _ (fun k => if (k =? j)%nat then a i k else 0)); [apply (csum_delta _ _ (fun k => a i k)); exact Hj|].
  intros k _. destruct (Nat.eqb_spec k j) as [->|]; ring.
Qed.
Lemma ufunc_second {A} (f : list (nat -> nat -> C) -> A) x M a d : to_array M = Ok a -> call_ufunc d f [OArray x; OMatrix M] = None.
Proof. intros H. apply (ufunc_later f (OArray x) [OMatrix M] M a d); [reflexivity|exact H|reflexivity]. Qed.
Lemma ufunc_both {A} (f : list (nat -> nat -> C) -> A) M N a b d : to_array M = Ok a -> to_array N = Ok b -> call_ufunc d f [OMatrix M; OMatrix N] = None.
Proof.
  intros H1 H2. destruct d as [|d]; [reflexivity|]. cbn [call_ufunc first_matrix tl]. rewrite H1. exact (ufunc_second f a N b d H2).
Qed.
