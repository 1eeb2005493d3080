(** Proofs for another unit of length for a beam: C185. *)
From Coq Require Import Reals List Arith Bool ZArith Lia Lra FunctionalExtensionality.
Require Import Verif.Base Verif.CSum Verif.Field Verif.Fourier_Model Verif.Fourier_Spec Verif.Vec_Model Verif.Modes_Model Verif.Modes_Proofs.
Require Import Verif.Beam_Model Verif.Beam_Spec Verif.Beam_Proofs Verif.Unit_Spec Verif.Cplx.
Import ListNotations.
Local Open Scope R_scope.
Local Open Scope C_scope.

Section Unit.
  Variables (a : R) (b : setup).
  Hypothesis (A : (0 < a)%R) (St : length (rstep (bgrid b)) = 3%nat) (Cp : (bcomp b <= 3)%nat) (Ax : (baxis b < 3)%nat) (K : bk b <> 0).
  Notation b' := (in_unit a b).
  Lemma A0 : RtoC a <> 0.
  Proof. intros H. apply (f_equal fst) in H. cbn in H. lra. Qed.

  Lemma kvec_unit c q : (c < 3)%nat -> kvec (bgrid b') c q = (kvec (bgrid b) c q / a)%R.
  Proof.
    intros H. unfold kvec, k_axis. cbn [in_unit bgrid rshape rstep].
    assert (nth c (map (fun x => a * x)%R (rstep (bgrid b))) 1%R = (a * nth c (rstep (bgrid b)) 1)%R) as ->.
    { rewrite (nth_indep _ 1%R (a * 1)%R) by (rewrite map_length; lia). apply (map_nth (fun x => a * x)%R). }
    unfold Rdiv. rewrite !Rinv_mult. ring.
  Qed.
  Lemma k_proj_t_unit c q : (c < 3)%nat -> k_proj_t b' c q = k_proj_t b c q.
  Proof.
    intros H. pose proof A0 as A1. unfold k_proj_t. cbn [in_unit baxis bk]. destruct (c =? baxis b)%nat; [reflexivity|]. change (bgrid _) with (bgrid b') at 1. rewrite kvec_unit by exact H.
    rewrite RtoC_div by lra. field. auto.
  Qed.
  Lemma k_proj_unit c q : (c < 3)%nat -> k_proj b' c q = k_proj b c q.
  Proof.
    intros H. unfold k_proj. rewrite (k_proj_t_unit c q H). rewrite (csum_ext 3 _ (fun i => k_proj_t b i q * k_proj_t b i q)) by (intros i Hi; rewrite k_proj_t_unit by exact Hi; reflexivity).
    reflexivity.
  Qed.
  Lemma k_dir_unit c q : (c < 3)%nat -> k_dir b' c q = k_dir b c q.
  Proof.
    intros H. unfold k_dir. rewrite (k_proj_unit c q H). do 2 f_equal. f_equal. apply rsum_ext. intros i Hi. rewrite k_proj_unit by exact Hi. reflexivity.
  Qed.
  Lemma shift_unit q : shift_ft b' q = shift_ft b q.
  Proof.
    unfold shift_ft. f_equal. apply rsum_ext. intros i Hi. rewrite kvec_unit by exact Hi. cbn [in_unit bfirst]. field. lra.
  Qed.
  Lemma propagator_unit d q : propagator b' (a * d) q = propagator b d q.
  Proof.
    pose proof A0 as A1. unfold propagator. cbn [in_unit baxis bk]. change (k_dir _ (baxis b) q) with (k_dir b' (baxis b) q) at 1. rewrite k_dir_unit by exact Ax. f_equal. rewrite RtoC_mult. field. auto.
  Qed.

  (** The sections in both units show the same and have corresponding distances to go. *)
  Definition same (F G : vfield) : Prop := forall c, (c < 3)%nat -> G c = F c.
  Definition alike (s t : section) : Prop := same (field_hat s) (field_hat t) /\ pending t = (a * pending s)%R.

  Lemma tiny_plain x : plain_in a x -> tiny (Rabs (a * x)) = tiny (Rabs x).
  Proof.
    intros [[X|X] [Y|Y]].
    - subst x. rewrite Rmult_0_r. reflexivity.
    - subst x. rewrite Rmult_0_r, Rabs_R0 in Y. lra.
    - apply Rmult_integral in Y. destruct Y as [Y|Y]; [lra|]. subst x. rewrite Rabs_R0 in X. lra.
    - rewrite (proj2 (tiny_false _) X), (proj2 (tiny_false _) Y). reflexivity.
  Qed.
  Lemma settle_alike s t : alike s t -> plain_in a (pending s) -> alike (settle b s) (settle b' t).
  Proof.
    intros [F P] R. unfold settle. rewrite P, (tiny_plain _ R). destruct (tiny _); [split; assumption|]. split; [|cbn; ring].
    intros c Hc. cbn [field_hat]. rewrite (F c Hc). apply functional_extensionality. intros q. rewrite propagator_unit. reflexivity.
  Qed.
  Lemma settle_done s : plain_in a (pending s) -> pending (settle b s) = 0%R.
  Proof. intros [[X|X] _]; unfold settle; [destruct (tiny _); [exact X|reflexivity]|rewrite (proj2 (tiny_false _) X); reflexivity]. Qed.
  Lemma read_alike s t : alike s t -> plain_in a (pending s) -> same (read_ft b s) (read_ft b' t).
  Proof. intros S R. exact (proj1 (settle_alike s t S R)). Qed.
  Lemma negligible_same F G : same F G -> negligible b' G = negligible b F.
  Proof.
    intros S. unfold negligible. change (bshape b') with (bshape b). change (bcomp b') with (bcomp b).
    assert (forall l, (forall c, In c l -> (c < 3)%nat) -> forallb (fun c => forallb (fun q => tiny (Cmod (G c q))) (indices (bshape b))) l = forallb (fun c => forallb (fun q => tiny (Cmod (F c q))) (indices (bshape b))) l) as H.
    { induction l as [|c l IH]; intros L; [reflexivity|]. cbn [forallb]. rewrite (S c (L c (or_introl eq_refl))). rewrite IH; [reflexivity|]. intros i Hi. apply L. right. exact Hi. }
    apply H. intros c Hc. apply in_seq in Hc. lia.
  Qed.
  Lemma read_field_alike s t : alike s t -> plain_in a (pending s) -> same (read_field b s) (read_field b' t).
  Proof.
    intros S R c Hc. pose proof (read_alike s t S R) as E. unfold read_field. rewrite (negligible_same _ _ E), (E c Hc). change (extended b') with (extended b). change (bshape b') with (bshape b).
    apply functional_extensionality. intros p. destruct (extended b); [|reflexivity]. destruct (negligible b _); [reflexivity|].
    f_equal. apply functional_extensionality. intros q. rewrite shift_unit. reflexivity.
  Qed.
  Lemma set_ft_alike F G : same F G -> alike (set_ft b F) (set_ft b' G).
  Proof.
    intros S. split; [|cbn; ring]. intros c Hc. cbn [set_ft field_hat]. unfold project. change (bcomp b') with (bcomp b). apply functional_extensionality. intros q.
    destruct (1 <? bcomp b)%nat; [|rewrite (S c Hc); reflexivity]. rewrite (S c Hc), k_dir_unit by exact Hc. f_equal. f_equal. apply csum_ext. intros i Hi. rewrite (S i Hi), k_dir_unit by exact Hi. reflexivity.
  Qed.
  Lemma set_field_alike f g : same f g -> alike (set_field b f) (set_field b' g).
  Proof.
    intros S. unfold set_field. change (extended b') with (extended b). destruct (extended b); apply set_ft_alike; [|exact S]. intros c Hc. apply functional_extensionality. intros q.
    change (bshape b') with (bshape b). rewrite (S c Hc), shift_unit. reflexivity.
  Qed.
  Lemma move_alike s t d : alike s t -> alike (move s d) (move t (a * d)).
  Proof. intros [F P]. split; [exact F|]. cbn. rewrite P. ring. Qed.
  Lemma interact_alike s t d n : alike s t -> plain_in a (pending s) -> alike (interact b s d n) (interact b' t (a * d) n) /\ (pending (interact b s d n) = pending s \/ pending (interact b s d n) = 0%R).
  Proof.
    intros S R. pose proof A0 as A1. unfold interact. change (uniform b' n) with (uniform b n).
    change (excess b' ?x) with (excess b x). assert (forall x, Ci * bk b' * excess b x * RtoC (a * d) = Ci * bk b * excess b x * RtoC d) as E.
    { intros x. cbn [in_unit bk]. rewrite RtoC_mult. field. exact A1. }
    destruct (uniform b n).
    - change (excess b' (n origin)) with (excess b (n origin)). destruct (tiny _); [split; [exact S|left; reflexivity]|]. destruct S as [F P]. split; [|left; reflexivity]. split; [|exact P].
      intros c Hc. cbn [field_hat]. rewrite (F c Hc), E. reflexivity.
    - split; [|right; unfold set_field; destruct (extended b); reflexivity]. apply set_field_alike. intros c Hc. rewrite (read_field_alike s t S R c Hc). apply functional_extensionality. intros p.
      change (excess b' (n p)) with (excess b (n p)). rewrite E. reflexivity.
  Qed.
  Lemma Rltb_scale x y : Rltb (a * x) (a * y) = Rltb x y.
  Proof. destruct (Rlt_dec x y) as [L|L]; [rewrite !Rltb_true; [reflexivity|exact L|nra]|rewrite !Rltb_false; [reflexivity|lra|nra]]. Qed.
  Lemma propagate_alike s t d m : alike s t -> (m = None \/ plain_in a (pending s) /\ plain_in a (pending s + d)) -> alike (propagate b s d m) (propagate b' t (a * d) m).
  Proof.
    intros S R. unfold propagate. replace (Rltb (a * d) 0) with (Rltb d 0) by (rewrite <- (Rltb_scale d 0), Rmult_0_r; reflexivity). replace (Rltb 0 (a * d)) with (Rltb 0 d) by (rewrite <- (Rltb_scale 0 d), Rmult_0_r; reflexivity).
    assert (alike (if Rltb d 0 then move s d else s) (if Rltb d 0 then move t (a * d) else t)) as S1 by (destruct (Rltb d 0); [apply move_alike|]; exact S).
    destruct m as [n|].
    - destruct R as [R|[R1 R2]]; [discriminate|]. assert (plain_in a (pending (if Rltb d 0 then move s d else s))) as P by (destruct (Rltb d 0); assumption).
      destruct (interact_alike _ _ d n S1 P) as [S2 _]. destruct (Rltb 0 d); [apply move_alike|]; exact S2.
    - destruct (Rltb 0 d); [apply move_alike|]; exact S1.
  Qed.
  Lemma propagate_pending s d m : plain_in a (pending s) -> plain_in a (pending s + d) -> pending (propagate b s d m) = (pending s + d)%R \/ pending (propagate b s d m) = d \/ pending (propagate b s d m) = 0%R.
  Proof.
    intros P Q. unfold propagate. destruct (Rlt_dec d 0) as [L|L]; [rewrite (Rltb_true _ _ L), (Rltb_false 0 d) by lra|rewrite (Rltb_false d 0) by lra].
    - destruct m as [n|]; [|left; reflexivity]. assert (alike (move s d) (move {| field_hat := field_hat s; pending := a * pending s |} (a * d))) as S by (apply move_alike; split; [intros c _; reflexivity|reflexivity]).
      destruct (proj2 (interact_alike _ _ d n S Q)) as [E|E]; rewrite E; [left; reflexivity|right; right; reflexivity].
    - assert (pending (match m with Some n => interact b s d n | None => s end) = pending s \/ pending (match m with Some n => interact b s d n | None => s end) = 0%R) as H.
      { destruct m as [n|]; [|left; reflexivity]. assert (alike s {| field_hat := field_hat s; pending := a * pending s |}) as S by (split; [intros c _; reflexivity|reflexivity]). exact (proj2 (interact_alike _ _ d n S P)). }
      destruct (Rlt_dec 0 d) as [L'|L'].
      + rewrite (Rltb_true _ _ L'). cbn [move pending]. destruct H as [H|H]; rewrite H; [left; reflexivity|right; left; ring].
      + rewrite (Rltb_false 0 d) by lra. assert (d = 0%R) as -> by lra. destruct H as [H|H]; rewrite H; [left; ring|right; right; reflexivity].
  Qed.

  (** ** Histories in one direction *)
  Definition ahead (sign x : R) : Prop := x = 0%R \/ (/ 100000000 < sign * x)%R /\ (/ 100000000 < sign * (a * x))%R.
  Lemma ahead_plain sign x : (sign = 1 \/ sign = -1)%R -> ahead sign x -> plain_in a x.
  Proof.
    intros G [H|[H H']]; [subst x; split; left; ring|]. split; right; destruct G; subst sign;
      [rewrite Rabs_pos_eq; lra|rewrite Rabs_left; lra|rewrite Rabs_pos_eq; lra|rewrite Rabs_left; lra].
  Qed.
  Lemma ahead_plus sign x d : ahead sign x -> (/ 100000000 < sign * d)%R /\ (/ 100000000 < sign * (a * d))%R -> ahead sign (x + d).
  Proof. intros [H|[H H']] [D D']; right; [subst x; rewrite !Rplus_0_l; split; assumption|split; lra]. Qed.
  Lemma act_alike sign s t x : (sign = 1 \/ sign = -1)%R -> alike s t -> ahead sign (pending s) -> onward sign a x ->
    alike (act b s x) (act b' t (action_in_unit a x)) /\ ahead sign (pending (act b s x)).
  Proof.
    intros G S P O. pose proof (ahead_plain sign _ G P) as R. destruct x as [d m| | |F|f]; cbn [act action_in_unit].
    - cbn in O. pose proof (ahead_plus sign _ d P O) as Q. pose proof (ahead_plain sign _ G Q) as R'. split; [apply propagate_alike; [exact S|right; split; assumption]|].
      destruct (propagate_pending s d m R R') as [E|[E|E]]; rewrite E; [exact Q|right; exact O|left; reflexivity].
    - split; [apply settle_alike; assumption|]. left. apply settle_done, R.
    - split; [apply settle_alike; assumption|]. left. apply settle_done, R.
    - split; [apply set_ft_alike; intros c _; reflexivity|left; reflexivity].
    - split; [apply set_field_alike; intros c _; reflexivity|left; unfold set_field; destruct (extended b); reflexivity].
  Qed.
  Lemma run_alike sign l : (sign = 1 \/ sign = -1)%R -> Forall (onward sign a) l -> forall s t, alike s t -> ahead sign (pending s) ->
    alike (run b s l) (run b' t (map (action_in_unit a) l)) /\ ahead sign (pending (run b s l)).
  Proof.
    intros G H. induction H as [|x l X H IH]; intros s t S P; [split; assumption|]. unfold run in *. cbn [map fold_left].
    destruct (act_alike sign s t x G S P X) as [S' P']. apply IH; assumption.
  Qed.
  Definition assigns (x : action) : Prop := match x with SetFt _ | SetField _ => True | _ => False end.
  Lemma run_read sign x l s t : (sign = 1 \/ sign = -1)%R -> assigns x -> Forall (onward sign a) l -> forall c p, (c < 3)%nat ->
    read_ft b' (run b' t (map (action_in_unit a) (x :: l))) c p = read_ft b (run b s (x :: l)) c p /\
    read_field b' (run b' t (map (action_in_unit a) (x :: l))) c p = read_field b (run b s (x :: l)) c p.
  Proof.
    intros G X H c p Hc. assert (alike (act b s x) (act b' t (action_in_unit a x)) /\ ahead sign (pending (act b s x))) as [S P].
    { destruct x as [d m| | |F|f]; try contradiction; cbn [act action_in_unit]; (split; [|left; try reflexivity; unfold set_field; destruct (extended b); reflexivity]).
      - apply set_ft_alike. intros i _. reflexivity.
      - apply set_field_alike. intros i _. reflexivity. }
    destruct (run_alike sign l G H _ _ S P) as [S' P']. pose proof (ahead_plain sign _ G P') as R. unfold run in *. cbn [map fold_left].
    rewrite (read_alike _ _ S' R c Hc), (read_field_alike _ _ S' R c Hc). split; reflexivity.
  Qed.

  (** ** Beams *)
  Lemma beam_alike step media : plain_in a step -> forall s t, alike s t -> pending s = 0%R \/ plain_in a (pending s) /\ plain_in a (pending s + step) ->
    forall c p, (c < 3)%nat -> map (fun f : vfield => f c p) (fst (beam_field b' t (a * step) media)) = map (fun f : vfield => f c p) (fst (beam_field b s step media)).
  Proof.
    intros Q. assert (plain_in a 0) as Z by (split; left; ring). induction media as [|m media IH]; intros s t S P c p Hc; [reflexivity|]. cbn [beam_field fst map].
    assert (plain_in a (pending s) /\ plain_in a (pending s + step)) as [P1 P2] by (destruct P as [E|P]; [rewrite E, Rplus_0_l; split; assumption|exact P]).
    assert (alike (propagate b s step m) (propagate b' t (a * step) m)) as S1 by (apply propagate_alike; [exact S|right; split; assumption]).
    assert (plain_in a (pending (propagate b s step m))) as R by (destruct (propagate_pending s step m P1 P2) as [E|[E|E]]; rewrite E; assumption).
    rewrite (read_field_alike _ _ S1 R c Hc). f_equal. apply IH; [apply settle_alike; assumption|left; apply settle_done, R|exact Hc].
  Qed.
  Lemma beam_unit F first step media : plain_in a (first - step) -> plain_in a first -> plain_in a step -> forall c p, (c < 3)%nat ->
    map (fun f : vfield => f c p) (fst (beam_field b' (enter b' (set_ft b' F) (a * first) (a * step)) (a * step) media)) = map (fun f : vfield => f c p) (fst (beam_field b (enter b (set_ft b F) first step) step media)).
  Proof.
    intros P1 P2 P3 c p Hc. unfold enter. replace (a * first - a * step)%R with (a * (first - step))%R by ring.
    apply beam_alike; [exact P3| |right|exact Hc].
    - apply propagate_alike; [apply set_ft_alike; intros i _; reflexivity|left; reflexivity].
    - rewrite propagate_none. destruct (Req_EM_T _ _) as [E|E]; cbn [set_ft move pending].
      + rewrite Rplus_0_l. split; [split; left; ring|exact P3].
      + rewrite Rplus_0_l. split; [exact P1|]. replace (first - step + step)%R with first by ring. exact P2.
  Qed.
End Unit.

(** ** A unit in which distances are taken for zero *)
Lemma short_unit b (s t : section) (F : vfield) d k q : bcomp b = 1%nat -> section_grid (bgrid b) (baxis b) -> (0 < k)%R -> bk b = RtoC k -> (/ 100000000 < Rabs d)%R ->
  F 0%nat q <> 0 -> cis (d * axial (bgrid b) (baxis b) k q) <> 1 -> forall a, (Rabs (a * d) <= / 100000000)%R ->
  read_ft (in_unit a b) (run (in_unit a b) t [SetFt F; Propagate (a * d) None]) 0%nat q = F 0%nat q /\ read_ft b (run b s [SetFt F; Propagate d None]) 0%nat q <> F 0%nat q.
Proof.
  intros N G K BK D NZ NP a Da. split.
  - rewrite (history_stale _ _ F [Propagate (a * d) None]); [|repeat constructor|cbn; rewrite Rplus_0_r; exact Da].
    unfold project. cbn [in_unit bcomp]. rewrite N. reflexivity.
  - rewrite (history_exact b s F [Propagate d None]) by first [(apply Forall_cons; [exact I|apply Forall_nil]) | right; cbn; rewrite Rplus_0_r; exact D].
    unfold project. rewrite N. cbn [total fold_right travelled Nat.ltb Nat.leb]. rewrite Rplus_0_r, (propagator_real b k) by assumption.
    intros E. apply NP. set (z := cis _) in *. assert (z = F 0%nat q * z / F 0%nat q) as -> by (field; exact NZ). rewrite E. field. exact NZ.
Qed.
