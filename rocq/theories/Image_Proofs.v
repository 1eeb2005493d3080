(** Proofs about images. *)
From Coq Require Import ZArith List Lia Arith Bool.
Require Import Verif.Base Verif.Num Verif.Display_Model Verif.Image_Model Verif.Image_Spec.
Require Verif.Array_Model Verif.Array_Proofs Verif.CSum.
Import ListNotations.

(** ** Lists and axes *)
Lemma insert_split {A} (b r : list A) x : insert_at (length b) x (b ++ r) = b ++ x :: r.
Proof. unfold insert_at. rewrite firstn_app, Nat.sub_diag, firstn_all, firstn_O, app_nil_r, skipn_app, Nat.sub_diag, skipn_all. reflexivity. Qed.
Lemma remove_split {A} (b r : list A) x : remove_at (length b) (b ++ x :: r) = b ++ r.
Proof. unfold remove_at. rewrite firstn_app, Nat.sub_diag, firstn_all, firstn_O, app_nil_r. f_equal. rewrite skipn_app, skipn_all2 by lia. replace (S (length b) - length b)%nat with 1%nat by lia. reflexivity. Qed.
Lemma nth_split_at {A} (b r : list A) x d : nth (length b) (b ++ x :: r) d = x.
Proof. rewrite app_nth2, Nat.sub_diag by lia. reflexivity. Qed.
Lemma axis_ok n axis k : stands_for n axis k -> axis_of n axis = Ok k.
Proof.
  intros (Hk & [->| ->]); unfold axis_of.
  - destruct (Z.leb_spec (- Z.of_nat n) (Z.of_nat k)); [|lia]. destruct (Z.ltb_spec (Z.of_nat k) (Z.of_nat n)); [|lia]. destruct (Z.ltb_spec (Z.of_nat k) 0); [lia|]. cbn [andb]. f_equal. lia.
  - destruct (Z.leb_spec (- Z.of_nat n) (Z.of_nat k - Z.of_nat n)); [|lia]. destruct (Z.ltb_spec (Z.of_nat k - Z.of_nat n) (Z.of_nat n)); [|lia].
    destruct (Z.ltb_spec (Z.of_nat k - Z.of_nat n) 0); [|lia]. cbn [andb]. f_equal. lia.
Qed.
Lemma axis_err n axis : (forall k, ~ stands_for n axis k) -> axis_of n axis = Err ValueError.
Proof.
  intros H. unfold axis_of. destruct (Z.leb_spec (- Z.of_nat n) axis) as [L|L]; [|reflexivity]. destruct (Z.ltb_spec axis (Z.of_nat n)) as [U|U]; [|reflexivity]. exfalso.
  destruct (Z.ltb_spec axis 0).
  - apply (H (Z.to_nat (axis + Z.of_nat n))). split; [lia|right; lia].
  - apply (H (Z.to_nat axis)). split; [lia|left; lia].
Qed.

(** ** Broadcasting *)
Definition covers (r s : list nat) : Prop := (length s <= length r)%nat /\ Forall2 (fun x y => x = 1 -> y = 1)%nat (skipn (length r - length s) r) s.
Lemma bzip_covers s t r : Array_Model.bzip s t = Some r -> length r = length s /\ length r = length t /\ Forall2 (fun x y => x = 1 -> y = 1)%nat r s /\ Forall2 (fun x y => x = 1 -> y = 1)%nat r t /\ Array_Model.bzip s r = Some r.
Proof.
  revert t r. induction s as [|m s IH]; intros [|n t] r; cbn [Array_Model.bzip]; intros E; try discriminate.
  - injection E as <-. repeat split; constructor.
  - destruct (Array_Model.bdim m n) as [d|] eqn:Ed; [|discriminate]. destruct (Array_Model.bzip s t) as [q|] eqn:Eq; [|discriminate]. injection E as <-.
    destruct (IH t q Eq) as (L1 & L2 & F1 & F2 & E2).
    assert ((d = 1 -> m = 1) /\ (d = 1 -> n = 1) /\ Array_Model.bdim m d = Some d)%nat as (D1 & D2 & D3).
    { unfold Array_Model.bdim in *. destruct (Nat.eqb_spec m n); [injection Ed as <-; subst; rewrite Nat.eqb_refl; auto|]. destruct (Nat.eqb_spec m 1).
      - injection Ed as <-. destruct (Nat.eqb_spec m n); [contradiction|]. auto.
      - destruct (Nat.eqb_spec n 1); [|discriminate]. injection Ed as <-. rewrite Nat.eqb_refl. repeat split; auto. }
    cbn. rewrite E2, D3. repeat split; try constructor; auto.
Qed.
Lemma skipn_lpad n s : (length s <= n)%nat -> skipn (n - length s) (Array_Model.lpad n s) = s.
Proof. intros H. unfold Array_Model.lpad. rewrite skipn_app, repeat_length, Nat.sub_diag, skipn_all2 by (rewrite repeat_length; lia). reflexivity. Qed.
Lemma lpad_length n s : (length s <= n)%nat -> length (Array_Model.lpad n s) = n.
Proof. intros H. unfold Array_Model.lpad. rewrite app_length, repeat_length. lia. Qed.
Lemma skipn_skipn {A} x y (l : list A) : skipn x (skipn y l) = skipn (x + y) l.
Proof. revert l. induction y as [|y IH]; intros l; [rewrite Nat.add_0_r; reflexivity|]. destruct l as [|a l]; [rewrite !skipn_nil; reflexivity|]. rewrite Nat.add_succ_r. cbn [skipn]. apply IH. Qed.
Lemma Forall2_skipn {A B} (P : A -> B -> Prop) l m k : Forall2 P l m -> Forall2 P (skipn k l) (skipn k m).
Proof. intros H. revert k. induction H; intros [|k]; cbn; try constructor; auto. Qed.
Lemma bshape_covers s t r : Array_Model.bshape s t = Some r -> covers r s /\ covers r t /\ Array_Model.bshape s r = Some r /\ length r = Nat.max (length s) (length t).
Proof.
  unfold Array_Model.bshape. cbv zeta. set (n := Nat.max (length s) (length t)). intros E. destruct (bzip_covers _ _ _ E) as (L1 & L2 & F1 & F2 & E2).
  rewrite lpad_length in L1 by lia. refine (conj _ (conj _ (conj _ L1))).
  - split; [lia|]. rewrite <- (skipn_lpad n s) at 2 by lia. rewrite L1. apply Forall2_skipn. exact F1.
  - split; [lia|]. rewrite <- (skipn_lpad n t) at 2 by lia. rewrite L1. apply Forall2_skipn. exact F2.
  - replace (Nat.max (length s) (length r)) with n by lia. rewrite (Array_Proofs.lpad_same n r) by lia. exact E2.
Qed.
Lemma bzip_self s : Array_Model.bzip s s = Some s.
Proof. induction s as [|n s IH]; cbn; [reflexivity|]. rewrite IH. unfold Array_Model.bdim. rewrite Nat.eqb_refl. reflexivity. Qed.
Lemma bshape_self s : Array_Model.bshape s s = Some s.
Proof. unfold Array_Model.bshape. cbv zeta. rewrite Nat.max_id, (Array_Proofs.lpad_same _ s) by reflexivity. apply bzip_self. Qed.
Lemma bzip_ones s n : Array_Model.bzip s (repeat 1%nat n) = if (length s =? n)%nat then Some s else None.
Proof.
  revert n. induction s as [|m s IH]; intros [|n]; cbn; try reflexivity. rewrite IH. unfold Array_Model.bdim. destruct (Nat.eqb_spec m 1) as [->|]; destruct (length s =? n)%nat; reflexivity.
Qed.
Lemma bshape_nil s : Array_Model.bshape s [] = Some s.
Proof.
  unfold Array_Model.bshape. cbv zeta. rewrite Nat.max_0_r, (Array_Proofs.lpad_same _ s) by reflexivity. unfold Array_Model.lpad. cbn [length]. rewrite Nat.sub_0_r, app_nil_r, bzip_ones, Nat.eqb_refl. reflexivity.
Qed.
Lemma covers_trans r s t : covers r s -> covers s t -> covers r t.
Proof.
  intros (L1 & F1) (L2 & F2). split; [lia|]. apply (Forall2_skipn _ _ _ (length s - length t)) in F1. rewrite skipn_skipn in F1. replace (length s - length t + (length r - length s))%nat with (length r - length t)%nat in F1 by lia.
  revert F1 F2. generalize (skipn (length r - length t) r), (skipn (length s - length t) s). intros a b F1. clear L2. revert t. induction F1; intros t F2; inversion F2; subst; constructor; auto.
Qed.
Lemma clip_skipn s p k : Array_Model.clip (skipn k s) (skipn k p) = skipn k (Array_Model.clip s p).
Proof. revert s p. induction k as [|k IH]; intros [|n s] [|i p]; cbn; try reflexivity; try apply IH; destruct (skipn k s); reflexivity. Qed.
Lemma clip_len s p : length (Array_Model.clip s p) = Nat.min (length s) (length p).
Proof. revert p. induction s as [|n s IH]; intros [|i p]; cbn; try reflexivity. rewrite IH. reflexivity. Qed.
Lemma clip_inside s p : CSum.inside s p -> Array_Model.clip s p = p.
Proof. induction 1 as [|n i s p Hi _ IH]; cbn; [reflexivity|]. rewrite IH. destruct (Nat.eqb_spec n 1); f_equal; lia. Qed.

Lemma inside_len s p : CSum.inside s p -> length p = length s.
Proof. intros H. symmetry. induction H; cbn; congruence. Qed.

Section Images.
  Variable N : num.
  Implicit Types a h s v : image N.
  Lemma spread_covered a r f q : covers r (ishape a) -> (length r <= length q)%nat ->
    spread N (Img r (fun p => f (spread N a p))) q = f (spread N a q).
  Proof.
    intros (L & F) Hq. unfold spread at 1. cbn [iget ishape]. unfold idim at 1. cbn [ishape]. f_equal. unfold spread, idim. f_equal.
    rewrite clip_len, skipn_length. replace (Nat.min (length r) (length q - (length q - length r)))%nat with (length r) by lia.
    rewrite <- clip_skipn, skipn_skipn, Array_Proofs.clip_clip by exact F. f_equal. f_equal. lia.
  Qed.
  Lemma spread_covered3 a b c r (f : N -> N -> N -> N) q : covers r (ishape a) -> covers r (ishape b) -> covers r (ishape c) -> (length r <= length q)%nat ->
    spread N (Img r (fun p => f (spread N a p) (spread N b p) (spread N c p))) q = f (spread N a q) (spread N b q) (spread N c q).
  Proof.
    intros Ha Hb Hc Hq. pose proof (spread_covered a r (fun x => x) q Ha Hq) as A. pose proof (spread_covered b r (fun x => x) q Hb Hq) as B. pose proof (spread_covered c r (fun x => x) q Hc Hq) as D.
    unfold spread at 1 in A. unfold spread at 1 in B. unfold spread at 1 in D. cbn [iget ishape] in A, B, D. unfold spread at 1. cbn [iget ishape]. unfold idim in *. cbn [ishape] in *. rewrite A, B, D. reflexivity.
  Qed.
  Lemma spread_same a p : length p = idim a -> CSum.inside (ishape a) p -> spread N a p = iget a p.
  Proof. intros L H. unfold spread. rewrite L, Nat.sub_diag. cbn [skipn]. rewrite clip_inside by exact H. reflexivity. Qed.
  Lemma spread_number x p : spread N (Img [] (fun _ => x)) p = x.
  Proof. reflexivity. Qed.

  Lemma front_back a n after axis k before : ishape a = n :: before ++ after -> length before = k -> stands_for (S (length (before ++ after))) axis k ->
    exists b, from_front N axis a = Ok b /\ ishape b = before ++ n :: after /\ forall i j c, length i = k -> iget b (i ++ c :: j) = iget a (c :: i ++ j).
  Proof.
    intros Es Hk Ha. unfold from_front, idim. rewrite Es. cbn [length hd tl]. rewrite (axis_ok _ _ _ Ha). eexists. refine (conj eq_refl (conj _ _)); cbn [ishape iget].
    - rewrite <- Hk. apply insert_split.
    - intros i j c Hi. rewrite <- Hi, nth_split_at, remove_split. reflexivity.
  Qed.
  Lemma front_to a n before after axis : ishape a = before ++ n :: after -> stands_for (S (length (before ++ after))) axis (length before) ->
    exists b, to_front N axis a = Ok b /\ ishape b = n :: before ++ after /\ forall i j c, length i = length before -> iget b (c :: i ++ j) = iget a (i ++ c :: j).
  Proof.
    intros Es Ha. unfold to_front, idim. rewrite Es. replace (length (before ++ n :: after)) with (S (length (before ++ after))) by (rewrite !app_length; cbn; lia).
    rewrite (axis_ok _ _ _ Ha). eexists. refine (conj eq_refl (conj _ _)); cbn [ishape iget].
    - rewrite nth_split_at, remove_split. reflexivity.
    - intros i j c Hi. cbn [hd tl]. rewrite <- Hi, insert_split. reflexivity.
  Qed.
  Lemma stack_ok x l : List.Forall (fun b => ishape b = ishape x) l -> stack N (x :: l) = Ok (Img (S (length l) :: ishape x) (fun p => iget (nth (hd 0%nat p) (x :: l) x) (tl p))).
  Proof.
    intros H. unfold stack. replace (forallb _ l) with true; [reflexivity|]. symmetry. apply forallb_forall. intros b Hb. rewrite Forall_forall in H. specialize (H b Hb). destruct (list_eq_dec _ _ _); [reflexivity|contradiction].
  Qed.

  (** ** hsv2rgb *)
  Lemma rgb_parts h s v alpha axis bs out before after : common_shape N [h; s; v] = Ok bs ->
    (match alpha with None => out = bs | Some a => Array_Model.bshape bs (ishape a) = Some out end) -> out = before ++ after -> stands_for (S (length out)) axis (length before) ->
    exists r, hsv2rgb_array N h (Some s) (Some v) alpha axis = Ok r /\
      has_pixels r before after (match alpha with None => 3 | Some _ => 4 end)
        (fun i j => hsv2rgb_image N (spread N h (i ++ j)) (spread N s (i ++ j)) (spread N v (i ++ j)) (option_map (fun a => spread N a (i ++ j)) alpha)).
  Proof.
    intros Ec Eo Es Ha. unfold hsv2rgb_array. cbn [hsv_arguments bind]. rewrite Ec. cbn [bind].
    assert (covers bs (ishape h) /\ covers bs (ishape s) /\ covers bs (ishape v)) as (Ch & Cs & Cv).
    { cbn [common_shape bind] in Ec. rewrite bshape_nil in Ec. cbn [bind] in Ec. destruct (Array_Model.bshape (ishape s) (ishape v)) as [t|] eqn:E1; [|discriminate]. cbn [bind] in Ec.
      destruct (Array_Model.bshape (ishape h) t) as [t'|] eqn:E2; [|discriminate]. injection Ec as ->. destruct (bshape_covers _ _ _ E1) as (A1 & A2 & _). destruct (bshape_covers _ _ _ E2) as (B1 & B2 & _).
      refine (conj B1 (conj (covers_trans _ _ _ B2 A1) (covers_trans _ _ _ B2 A2))). }
    set (part := fun f : N * N * N -> N => Img bs (fun p => f (hsv2rgb N (spread N h p) (spread N s p) (spread N v p)))).
    assert (forall f q, (length bs <= length q)%nat -> spread N (part f) q = f (hsv2rgb N (spread N h q) (spread N s q) (spread N v q))) as Hp.
    { intros f q Hq. unfold part. apply (spread_covered3 h s v bs (fun x y z => f (hsv2rgb N x y z)) q Ch Cs Cv Hq). }
    assert (length bs <= length out)%nat as Hl. { destruct alpha as [a|]; [destruct (bshape_covers _ _ _ Eo) as ((L & _) & _); exact L|subst; lia]. }
    destruct alpha as [a|].
    - unfold broadcast_arrays. cbn [app common_shape bind]. rewrite bshape_nil. cbn [bind ishape part]. rewrite Eo. cbn [bind].
      destruct (bshape_covers _ _ _ Eo) as (_ & _ & E2 & _). rewrite E2. cbn [bind]. rewrite E2. cbn [bind map].
      rewrite stack_ok by (repeat constructor). cbn [bind length ishape].
      match goal with |- exists r, from_front N axis ?y = _ /\ _ => destruct (front_back y 4 after axis (length before) before ltac:(cbn [ishape]; rewrite Es; reflexivity) eq_refl ltac:(rewrite <- Es; exact Ha)) as (b & Eb & Sb & Gb) end.
      exists b. split; [exact Eb|]. split; [exact Sb|]. intros i j c Hi Hj Hc. apply inside_len in Hi. apply inside_len in Hj. rewrite Gb by exact Hi. cbn [iget hd tl].
      assert (length bs <= length (i ++ j))%nat as Hq by (rewrite app_length, Hi, Hj, <- app_length, <- Es; exact Hl).
      cbn [option_map]. unfold hsv2rgb_image. pose proof (Hp (fun c => fst (fst c)) (i ++ j) Hq) as P1. pose proof (Hp (fun c => snd (fst c)) (i ++ j) Hq) as P2. pose proof (Hp snd (i ++ j) Hq) as P3.
      destruct (hsv2rgb N (spread N h (i ++ j)) (spread N s (i ++ j)) (spread N v (i ++ j))) as [[r g] b']. cbn [fst snd] in P1, P2, P3.
      destruct c as [|[|[|[|c]]]]; [| | | |lia]; cbn [nth nth_error iget]; f_equal; symmetry; assumption || reflexivity.
    - subst out. unfold broadcast_arrays. cbn [common_shape bind]. rewrite bshape_nil. cbn [bind ishape part]. rewrite bshape_self. cbn [bind]. rewrite bshape_self. cbn [bind map].
      rewrite stack_ok by (repeat constructor). cbn [bind length ishape].
      match goal with |- exists r, from_front N axis ?y = _ /\ _ => destruct (front_back y 3 after axis (length before) before ltac:(cbn [ishape]; rewrite Es; reflexivity) eq_refl ltac:(rewrite <- Es; exact Ha)) as (b & Eb & Sb & Gb) end.
      exists b. split; [exact Eb|]. split; [exact Sb|]. intros i j c Hi Hj Hc. apply inside_len in Hi. apply inside_len in Hj. rewrite Gb by exact Hi. cbn [iget hd tl].
      assert (length bs <= length (i ++ j))%nat as Hq by (rewrite app_length, Hi, Hj, <- app_length, <- Es; exact Hl).
      cbn [option_map]. unfold hsv2rgb_image. pose proof (Hp (fun c => fst (fst c)) (i ++ j) Hq) as P1. pose proof (Hp (fun c => snd (fst c)) (i ++ j) Hq) as P2. pose proof (Hp snd (i ++ j) Hq) as P3.
      destruct (hsv2rgb N (spread N h (i ++ j)) (spread N s (i ++ j)) (spread N v (i ++ j))) as [[r g] b']. cbn [fst snd] in P1, P2, P3.
      destruct c as [|[|[|c]]]; [| | |lia]; cbn [nth nth_error iget]; f_equal; symmetry; assumption || reflexivity.
  Qed.
  Lemma channel_ok b n rest c : ishape b = n :: rest -> (c < n)%nat -> channel N b c = Ok (Img rest (fun p => iget b (c :: p))).
  Proof. intros E H. unfold channel. rewrite E. cbn [hd tl]. destruct (Nat.ltb_spec c n); [reflexivity|lia]. Qed.
  (** One array of at least three channels. *)
  Definition given_alpha b n rest (alpha : option (image N)) : option (image N) := match alpha with Some x => Some x | None => if (3 <? n)%nat then Some (Img rest (fun p => iget b (3%nat :: p))) else None end.
  Lemma hsv_stacked a b n rest alpha axis : to_front N axis a = Ok b -> ishape b = n :: rest -> (3 <= n)%nat ->
    hsv2rgb_array N a None None alpha axis = hsv2rgb_array N (Img rest (fun p => iget b (0%nat :: p))) (Some (Img rest (fun p => iget b (1%nat :: p)))) (Some (Img rest (fun p => iget b (2%nat :: p)))) (given_alpha b n rest alpha) axis.
  Proof.
    intros E S Hn. unfold hsv2rgb_array at 1. cbn [hsv_arguments bind]. rewrite E. cbn [bind]. rewrite S. cbn [hd]. rewrite (channel_ok b n rest 0), (channel_ok b n rest 1), (channel_ok b n rest 2) by (assumption || lia).
    destruct alpha as [x|]; [reflexivity|]. unfold given_alpha. destruct (Nat.ltb_spec 3 n) as [L|L]; [|reflexivity]. rewrite (channel_ok b n rest 3) by assumption. reflexivity.
  Qed.
  Lemma inside_app (s t p q : list nat) : CSum.inside s p -> CSum.inside t q -> CSum.inside (s ++ t) (p ++ q).
  Proof. apply Forall2_app. Qed.
  Theorem hsv_image_pixels a n before after alpha axis : ishape a = before ++ n :: after -> (3 <= n)%nat -> stands_for (S (length (before ++ after))) axis (length before) ->
    (forall x, alpha = Some x -> ishape x = before ++ after) ->
    exists r, hsv2rgb_array N a None None alpha axis = Ok r /\
      has_pixels r before after (if (match alpha with Some _ => true | None => 3 <? n end)%nat then 4 else 3)
        (fun i j => hsv2rgb_image N (iget a (i ++ 0%nat :: j)) (iget a (i ++ 1%nat :: j)) (iget a (i ++ 2%nat :: j))
           (match alpha with Some x => Some (iget x (i ++ j)) | None => if (3 <? n)%nat then Some (iget a (i ++ 3%nat :: j)) else None end)).
  Proof.
    intros Es Hn Ha Hx. destruct (front_to a n before after axis Es Ha) as (b & Eb & Sb & Gb). rewrite (hsv_stacked a b n (before ++ after) alpha axis Eb Sb Hn).
    set (ch := fun c : nat => Img (before ++ after) (fun p => iget b (c :: p))). set (al := given_alpha b n (before ++ after) alpha).
    assert (common_shape N [ch 0; ch 1; ch 2]%nat = Ok (before ++ after)) as Ec.
    { cbn [common_shape bind ishape ch]. rewrite bshape_nil. cbn [bind]. rewrite bshape_self. cbn [bind]. rewrite bshape_self. reflexivity. }
    assert (match al with None => before ++ after = before ++ after | Some x => Array_Model.bshape (before ++ after) (ishape x) = Some (before ++ after) end) as Eo.
    { unfold al, given_alpha. destruct alpha as [x|]; [rewrite (Hx x eq_refl); apply bshape_self|]. destruct (3 <? n)%nat; [apply bshape_self|reflexivity]. }
    destruct (rgb_parts (ch 0%nat) (ch 1%nat) (ch 2%nat) al axis (before ++ after) (before ++ after) before after Ec Eo eq_refl Ha) as (r & Er & Sr & Gr).
    exists r. split; [exact Er|]. split.
    - rewrite Sr. f_equal. f_equal. unfold al, given_alpha. destruct alpha; [reflexivity|]. destruct (3 <? n)%nat; reflexivity.
    - intros i j c Hi Hj Hc. rewrite <- Gr; [|exact Hi|exact Hj|]. 2:{ unfold al, given_alpha. destruct alpha; [exact Hc|]. destruct (3 <? n)%nat; exact Hc. }
      pose proof (inside_app _ _ _ _ Hi Hj) as Hij. pose proof (inside_len _ _ Hij) as Lij. pose proof (inside_len _ _ Hi) as Li.
      rewrite !spread_same by (exact Lij || exact Hij). cbn [ch iget]. rewrite !Gb by exact Li. f_equal. f_equal.
      unfold al, given_alpha. destruct alpha as [x|]; cbn [option_map].
      + f_equal. symmetry. pose proof (Hx x eq_refl) as Sx. apply spread_same; [unfold idim; rewrite Sx; exact Lij|rewrite Sx; exact Hij].
      + destruct (3 <? n)%nat; [|reflexivity]. cbn [option_map]. f_equal. rewrite spread_same by (exact Lij || exact Hij). cbn [iget]. rewrite Gb by exact Li. reflexivity.
  Qed.
  Theorem hsv_errors a s v alpha axis :
    hsv2rgb_array N a (Some s) None alpha axis = Err TypeError /\ hsv2rgb_array N a None (Some v) alpha axis = Err TypeError /\
    ((forall k, ~ stands_for (idim a) axis k) -> hsv2rgb_array N a None None alpha axis = Err ValueError) /\
    (forall n before after, ishape a = before ++ n :: after -> stands_for (idim a) axis (length before) -> (n < 3)%nat -> hsv2rgb_array N a None None alpha axis = Err IndexError).
  Proof.
    refine (conj eq_refl (conj eq_refl (conj _ _))).
    - intros H. unfold hsv2rgb_array, hsv_arguments, to_front. rewrite (axis_err _ _ H). reflexivity.
    - intros n before after Es Ha Hn. assert (idim a = S (length (before ++ after))) as L by (unfold idim; rewrite Es, !app_length; cbn; lia). rewrite L in Ha.
      destruct (front_to a n before after axis Es Ha) as (b & Eb & Sb & _). unfold hsv2rgb_array, hsv_arguments. rewrite Eb. cbn [bind]. rewrite Sb. cbn [hd]. destruct (Nat.ltb_spec 3 n); [lia|].
      unfold channel. rewrite Sb. cbn [hd]. destruct (Nat.ltb_spec 2 n); [lia|]. destruct alpha; reflexivity.
  Qed.

  (** ** rgb2hsv *)
  Lemma stacked_to_hsv b n before after alpha axis : ishape b = n :: before ++ after -> (3 <= n)%nat -> stands_for (S (length (before ++ after))) axis (length before) ->
    forall red green blue, rgb_arguments N red green blue alpha axis = Ok b ->
    match alpha with Some x => ishape x = before ++ after | None => True end ->
    exists r, rgb2hsv_array N red green blue alpha axis = Ok r /\
      has_pixels r before after (match alpha with None => 3 | Some _ => 4 end) (fun i j => hsv_and (map (fun c => iget b (c :: i ++ j)) (seq 0 n)) (option_map (fun x => iget x (i ++ j)) alpha)).
  Proof.
    intros Sb Hn Ha red green blue E Hx. unfold rgb2hsv_array. rewrite E. cbn [bind]. rewrite Sb. cbn [hd tl]. destruct (Nat.eqb_spec n 0); [lia|]. destruct (Nat.ltb_spec n 3); [lia|].
    destruct alpha as [x|].
    - cbn [app]. rewrite stack_ok by (repeat constructor; exact Hx). cbn [bind length ishape].
      match goal with |- exists r, from_front N axis ?y = _ /\ _ => destruct (front_back y 4 after axis (length before) before eq_refl eq_refl Ha) as (r & Er & Sr & Gr) end.
      exists r. split; [exact Er|]. split; [exact Sr|]. intros i j c Hi Hj Hc. rewrite Gr by (apply inside_len; exact Hi). cbn [iget hd tl]. unfold pixel. rewrite Sb. cbn [hd].
      unfold hsv_and, rgb2hsv_image. destruct c as [|[|[|[|c]]]]; [| | | |lia]; cbn [nth iget option_map]; destruct (stacked2hsv N _) as [[h s] v]; reflexivity.
    - rewrite stack_ok by (repeat constructor). cbn [bind length ishape].
      match goal with |- exists r, from_front N axis ?y = _ /\ _ => destruct (front_back y 3 after axis (length before) before eq_refl eq_refl Ha) as (r & Er & Sr & Gr) end.
      exists r. split; [exact Er|]. split; [exact Sr|]. intros i j c Hi Hj Hc. rewrite Gr by (apply inside_len; exact Hi). cbn [iget hd tl]. unfold pixel. rewrite Sb. cbn [hd].
      unfold hsv_and, rgb2hsv_image. destruct c as [|[|[|c]]]; [| | |lia]; cbn [nth iget option_map]; destruct (stacked2hsv N _) as [[h s] v]; reflexivity.
  Qed.
  Lemma has_pixels_ext r before after n f g : (forall i j, CSum.inside before i -> CSum.inside after j -> f i j = g i j) -> has_pixels (N:=N) r before after n f -> has_pixels r before after n g.
  Proof. intros H (S & G). split; [exact S|]. intros i j c Hi Hj Hc. rewrite <- H by assumption. apply G; assumption. Qed.
  Theorem rgb_image_pixels a n before after alpha axis : ishape a = before ++ n :: after -> (3 <= n)%nat -> stands_for (S (length (before ++ after))) axis (length before) ->
    (forall x, alpha = Some x -> ishape x = before ++ after) ->
    exists r, rgb2hsv_array N a None None alpha axis = Ok r /\
      has_pixels r before after (match alpha with None => 3 | Some _ => 4 end) (fun i j => hsv_and (channels_at a n i j) (option_map (fun x => iget x (i ++ j)) alpha)).
  Proof.
    intros Es Hn Ha Hx. destruct (front_to a n before after axis Es Ha) as (b & Eb & Sb & Gb).
    destruct (stacked_to_hsv b n before after alpha axis Sb Hn Ha a None None Eb) as (r & Er & Gr). { destruct alpha as [x|]; [apply Hx; reflexivity|exact I]. }
    exists r. split; [exact Er|]. eapply has_pixels_ext; [|exact Gr]. intros i j Hi Hj. cbv beta. f_equal. unfold channels_at. apply map_ext. intros c. apply Gb. apply inside_len. exact Hi.
  Qed.
  (** Separate arrays: the colour channels are broadcast, but the alpha channel has to have the shape of the result. *)
  Lemma stacked_arguments l bs : l <> [] -> common_shape N l = Ok bs -> exists b, (do m <- broadcast_arrays N l; stack N m) = Ok b /\ ishape b = length l :: bs /\ forall c p x, nth_error l c = Some x -> iget b (c :: p) = spread N x p.
  Proof.
    intros Hl Ec. unfold broadcast_arrays. rewrite Ec. cbn [bind]. destruct l as [|x l]; [contradiction|]. cbn [map].
    rewrite stack_ok. 2:{ apply Forall_forall. intros y Hy. apply in_map_iff in Hy. destruct Hy as (z & <- & _). reflexivity. }
    eexists. refine (conj eq_refl (conj _ _)); cbn [ishape iget].
    - rewrite map_length. reflexivity.
    - intros c p y Hy. cbn [hd tl]. change (Img bs (spread N x) :: map (fun a => Img bs (spread N a)) l) with (map (fun a => Img bs (spread N a)) (x :: l)).
      rewrite (nth_indep _ _ (Img bs (spread N y))) by (rewrite map_length; apply nth_error_Some; congruence). rewrite (map_nth (fun a => Img bs (spread N a))). rewrite (nth_error_nth _ _ _ Hy). reflexivity.
  Qed.
  Definition with_alpha (l : list (image N)) (alpha : option (image N)) : list (image N) := match alpha with None => l | Some x => l ++ [x] end.
  Theorem rgb_parts_pixels red green blue alpha axis before after : common_shape N (with_alpha [red; green; blue] alpha) = Ok (before ++ after) ->
    stands_for (S (length (before ++ after))) axis (length before) -> (forall x, alpha = Some x -> ishape x = before ++ after) ->
    exists r, rgb2hsv_array N red (Some green) (Some blue) alpha axis = Ok r /\
      has_pixels r before after (match alpha with None => 3 | Some _ => 4 end)
        (fun i j => rgb2hsv N (spread N red (i ++ j)) (spread N green (i ++ j)) (spread N blue (i ++ j)) (option_map (fun x => iget x (i ++ j)) alpha)).
  Proof.
    intros Ec Ha Hx. destruct (stacked_arguments (with_alpha [red; green; blue] alpha) (before ++ after)) as (b & Eb & Sb & Gb); [destruct alpha; discriminate|exact Ec|].
    assert (rgb_arguments N red (Some green) (Some blue) alpha axis = Ok b) as E by (destruct alpha; exact Eb).
    destruct (stacked_to_hsv b (length (with_alpha [red; green; blue] alpha)) before after alpha axis Sb ltac:(destruct alpha; cbn; lia) Ha red (Some green) (Some blue) E) as (r & Er & Gr). { destruct alpha as [x|]; [apply Hx; reflexivity|exact I]. }
    exists r. split; [exact Er|]. eapply has_pixels_ext; [|exact Gr]. intros i j Hi Hj. cbv beta. pose proof (inside_app _ _ _ _ Hi Hj) as Hij. pose proof (inside_len _ _ Hij) as Lij.
    destruct alpha as [x|]; cbn [with_alpha app length seq map option_map].
    - rewrite (Gb 0 (i ++ j) red)%nat, (Gb 1 (i ++ j) green)%nat, (Gb 2 (i ++ j) blue)%nat, (Gb 3 (i ++ j) x)%nat by reflexivity. pose proof (Hx x eq_refl) as Sx.
      rewrite (spread_same x) by (unfold idim; rewrite Sx; assumption). unfold hsv_and, rgb2hsv, rgb2hsv_image. destruct (stacked2hsv N _) as [[h s] v]. reflexivity.
    - rewrite (Gb 0 (i ++ j) red)%nat, (Gb 1 (i ++ j) green)%nat, (Gb 2 (i ++ j) blue)%nat by reflexivity. unfold hsv_and, rgb2hsv, rgb2hsv_image. destruct (stacked2hsv N _) as [[h s] v]. reflexivity.
  Qed.
  Theorem rgb_alpha_shape red green blue x axis bs : common_shape N [red; green; blue; x] = Ok bs -> ishape x <> bs -> rgb2hsv_array N red (Some green) (Some blue) (Some x) axis = Err ValueError.
  Proof.
    intros Ec Hx. destruct (stacked_arguments [red; green; blue; x] bs ltac:(discriminate) Ec) as (b & Eb & Sb & _). unfold rgb2hsv_array. cbn [rgb_arguments]. rewrite Eb. cbn [bind]. rewrite Sb. cbn [hd tl length Nat.eqb Nat.ltb Nat.leb app].
    unfold stack. cbn [forallb ishape]. destruct (list_eq_dec Nat.eq_dec (ishape x) bs); [contradiction|]. rewrite !andb_false_r. reflexivity.
  Qed.
  Theorem rgb_errors a g b alpha axis :
    rgb2hsv_array N a (Some g) None alpha axis = Err TypeError /\ rgb2hsv_array N a None (Some b) alpha axis = Err TypeError /\
    ((forall k, ~ stands_for (idim a) axis k) -> rgb2hsv_array N a None None alpha axis = Err ValueError) /\
    (forall n before after, ishape a = before ++ n :: after -> stands_for (idim a) axis (length before) -> (0 < n < 3)%nat -> rgb2hsv_array N a None None alpha axis = Err IndexError).
  Proof.
    refine (conj eq_refl (conj eq_refl (conj _ _))).
    - intros H. unfold rgb2hsv_array, rgb_arguments, to_front. rewrite (axis_err _ _ H). reflexivity.
    - intros n before after Es Ha Hn. assert (idim a = S (length (before ++ after))) as L by (unfold idim; rewrite Es, !app_length; cbn; lia). rewrite L in Ha.
      destruct (front_to a n before after axis Es Ha) as (c & Eb & Sb & _). unfold rgb2hsv_array, rgb_arguments. rewrite Eb. cbn [bind]. rewrite Sb. cbn [hd]. destruct (Nat.eqb_spec n 0); [lia|]. destruct (Nat.ltb_spec n 3); [reflexivity|lia].
  Qed.
End Images.
