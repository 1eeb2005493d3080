(** Proofs for the order of the axes of a beam: C189. *)
From Coq Require Import Reals List Arith Bool ZArith Lia Lra FunctionalExtensionality.
Require Import Verif.Base Verif.CSum Verif.Field Verif.Fourier_Model Verif.Fourier_Spec Verif.Fourier_Proofs Verif.Vec_Model Verif.Modes_Model Verif.Modes_Proofs.
Require Import Verif.Vec_Proofs Verif.Symmetry_Reciprocity Verif.Symmetry_Spec Verif.Symmetry_Mirror Verif.Maxwell_Mirror.
Require Import Verif.Beam_Model Verif.Beam_Spec Verif.Beam_Proofs Verif.Beam_Media Verif.Displace_Proofs Verif.Relabel_Spec Verif.Cplx.
Import ListNotations.
Local Open Scope R_scope.
Local Open Scope C_scope.

Lemma csum_exchange axis (f : nat -> C) : (axis < 2)%nat -> csum 3 (fun i => f (exchange_index axis i)) = csum 3 f.
Proof. intros H. rewrite !csum3. destruct axis as [|[|a]]; [| |lia]; cbn; ring. Qed.
Lemma exchange_index_eqb axis c d : (c =? exchange_index axis d)%nat = (exchange_index axis c =? d)%nat.
Proof.
  apply eq_true_iff_eq. rewrite !Nat.eqb_eq. split; [intros ->|intros <-]; rewrite exchange_index_twice; reflexivity.
Qed.

Section Relabel.
  Variables (b : setup) (a : nat).
  Notation b' := (exchanged_setup a b).
  Notation sh := (bshape b).
  Notation sh' := (bshape (exchanged_setup a b)).
  Notation v := (1 <? bcomp b)%nat.
  Notation ex := (@exchange nat a).
  Notation xi := (exchange_index a).
  Notation sw := (swap (1 <? bcomp b)%nat a).
  Hypothesis (G : section_grid (bgrid b) (baxis b)) (A : (a < 2)%nat) (Cp : bcomp b = 1%nat \/ bcomp b = 3%nat).

  Lemma ex_in p : inside sh' p -> inside sh (ex p).
  Proof. intros H. apply (exchange_inside a) in H. unfold bshape in *. cbn [bgrid exchanged_setup exchanged_grid rshape] in H. rewrite exchange_exchange in H. exact H. Qed.
  Lemma ex_in' p : inside sh p -> inside sh' (ex p).
  Proof. intros H. exact (exchange_inside a _ _ H). Qed.
  Lemma xi_less c : (c < 3)%nat -> (xi c < 3)%nat.
  Proof. intros H. apply exchange_index_less; lia. Qed.
  Lemma sw_less c : (c < 3)%nat -> (sw c < 3)%nat.
  Proof. intros H. unfold swap. destruct (_ <? _)%nat; [apply xi_less|]; exact H. Qed.
  Lemma sw_sw c : sw (sw c) = c.
  Proof. unfold swap. destruct (_ <? _)%nat; [apply exchange_index_twice|reflexivity]. Qed.
  Lemma sw_comp c : (c < bcomp b)%nat -> (sw c < bcomp b)%nat.
  Proof. intros H. unfold swap. pose proof Cp as [E|E]; rewrite E in H |- *; cbn [Nat.ltb Nat.leb]; [exact H|apply xi_less, H]. Qed.
  Lemma ex_origin : ex origin = origin.
  Proof. unfold origin. destruct a as [|[|]]; [reflexivity..|lia]. Qed.

  Lemma kvec_ex c q : inside sh' q -> kvec (bgrid b') c q = kvec (bgrid b) (xi c) (ex q).
  Proof.
    intros Hq. pose proof (ex_in q Hq) as Hq'. destruct G as (L & L' & _). pose proof (inside_length _ _ Hq') as Lq. pose proof (exchange_length a q) as L2. unfold bshape in Lq.
    unfold kvec, exchanged_setup, exchanged_grid. cbn [bgrid rshape rstep]. rewrite <- (exchange_exchange a q) at 1. rewrite !exchange_nth by (try rewrite exchange_length in Lq; lia). reflexivity.
  Qed.
  Lemma kt_ex c q : inside sh' q -> k_proj_t b' c q = k_proj_t b (xi c) (ex q).
  Proof. intros Hq. unfold k_proj_t. rewrite kvec_ex by exact Hq. cbn [exchanged_setup baxis bk]. rewrite exchange_index_eqb. reflexivity. Qed.
  Lemma kp_ex c q : inside sh' q -> k_proj b' c q = k_proj b (xi c) (ex q).
  Proof.
    intros Hq. unfold k_proj. rewrite kt_ex by exact Hq. change (baxis b') with (xi (baxis b)). rewrite exchange_index_eqb. destruct (_ =? _)%nat; [|reflexivity]. do 4 f_equal.
    rewrite <- (csum_exchange a (fun i => k_proj_t b i (ex q) * k_proj_t b i (ex q)) A). apply csum_ext. intros i _. rewrite kt_ex by exact Hq. reflexivity.
  Qed.
  Lemma kd_ex c q : inside sh' q -> k_dir b' c q = k_dir b (xi c) (ex q).
  Proof.
    intros Hq. unfold k_dir. rewrite kp_ex by exact Hq. do 3 f_equal. rewrite <- (rsum_exchange a 3 (fun i => Cmod (k_proj b i (ex q)) * Cmod (k_proj b i (ex q)))%R) by lia.
    apply rsum_ext. intros i _. rewrite kp_ex by exact Hq. reflexivity.
  Qed.
  Lemma shift_ex q : inside sh' q -> shift_ft b' q = shift_ft b (ex q).
  Proof.
    intros Hq. unfold shift_ft. f_equal. rewrite <- (rsum_exchange a 3 (fun c => kvec (bgrid b) c (ex q) * bfirst b c)%R) by lia. apply rsum_ext. intros i _. rewrite kvec_ex by exact Hq. reflexivity.
  Qed.
  Lemma propagator_ex d q : inside sh' q -> propagator b' d q = propagator b d (ex q).
  Proof. intros Hq. unfold propagator. rewrite kd_ex by exact Hq. cbn [exchanged_setup baxis bk]. rewrite exchange_index_twice. reflexivity. Qed.
  Lemma ft_ex f q : inside sh' q -> ft sh' (fun p => f (ex p)) q = ft sh f (ex q).
  Proof.
    intros Hq. unfold ft. change sh' with (exchange a sh) in *. rewrite <- (exchange_sum a sh). apply sum_over_ext. intros p Hp. f_equal. f_equal. f_equal.
    rewrite <- (exchange_phase a (exchange a sh) p q) by assumption. rewrite exchange_exchange. reflexivity.
  Qed.
  Lemma ift_ex F p : inside sh' p -> ift sh' (fun q => F (ex q)) p = ift sh F (ex p).
  Proof.
    intros Hp. unfold ift. change sh' with (exchange a sh) in *. rewrite exchange_points. f_equal. rewrite <- (exchange_sum a sh). apply sum_over_ext. intros q Hq. f_equal. f_equal.
    rewrite <- (exchange_phase a (exchange a sh) p q) by assumption. rewrite exchange_exchange. reflexivity.
  Qed.
  Lemma extended_ex : extended b' = extended b.
  Proof.
    unfold extended. change sh' with (exchange a sh). apply eq_true_iff_eq. rewrite !existsb_exists. assert (forall l (x : nat), In x l -> In x (exchange a l)) as Q.
    { clear. induction a as [|n IH]; intros [|y [|z l]] x H; cbn [exchange] in *; auto; try (destruct H as [H|[H|H]]; cbn; tauto); destruct H as [H|H]; [left; exact H|right; apply IH, H|left; exact H|right; apply IH, H]. }
    split; intros (x & Hx & L); exists x; (split; [|exact L]); [|apply Q, Hx]. apply Q in Hx. rewrite exchange_exchange in Hx. exact Hx.
  Qed.

  (** ** Sections *)
  Notation xed := (exchanged (1 <? bcomp b)%nat a).
  Definition twin (s t : section) : Prop := vagree 3 sh' (field_hat t) (xed (field_hat s)) /\ pending t = pending s.
  Lemma settle_twin s t : twin s t -> twin (settle b s) (settle b' t).
  Proof.
    intros [F P]. unfold settle. rewrite P. destruct (tiny _); [split; assumption|]. split; [|reflexivity]. intros c q Hc Hq. cbn [field_hat]. rewrite (F c q Hc Hq). unfold exchanged. cbn [field_hat]. rewrite ?P, propagator_ex by exact Hq. reflexivity.
  Qed.
  Lemma read_twin s t : twin s t -> vagree 3 sh' (read_ft b' t) (xed (read_ft b s)).
  Proof. intros S. exact (proj1 (settle_twin s t S)). Qed.
  Lemma negligible_twin F H : vagree 3 sh' H (xed F) -> negligible b' H = negligible b F.
  Proof.
    intros E. apply eq_true_iff_eq. rewrite !negligible_spec. change (bcomp b') with (bcomp b). split; intros L c q Hc Hq.
    - specialize (L (sw c) (ex q) (sw_comp c Hc) (ex_in' q Hq)). assert (c < 3)%nat as Hc3 by (pose proof Cp; lia). rewrite (E (sw c) (ex q) (sw_less c Hc3) (ex_in' q Hq)) in L. change (xed F (sw c) (ex q)) with (F (sw (sw c)) (ex (ex q))) in L. rewrite sw_sw, exchange_exchange in L. exact L.
    - rewrite (E c q ltac:(pose proof Cp; lia) Hq). exact (L (sw c) (ex q) (sw_comp c Hc) (ex_in q Hq)).
  Qed.
  Lemma read_field_twin s t : twin s t -> vagree 3 sh' (read_field b' t) (xed (read_field b s)).
  Proof.
    intros S c p Hc Hp. pose proof (read_twin s t S) as E. unfold exchanged, read_field. rewrite (negligible_twin _ _ E), extended_ex. destruct (extended b).
    - destruct (negligible b _); [reflexivity|]. rewrite <- (ift_ex (fun q => read_ft b s (sw c) q * shift_ft b q)) by exact Hp. apply ift_ext. intros q Hq. rewrite (E c q Hc Hq), shift_ex by exact Hq. reflexivity.
    - rewrite (E c p Hc Hp). reflexivity.
  Qed.
  Lemma set_ft_twin F H : vagree 3 sh' H (xed F) -> twin (set_ft b F) (set_ft b' H).
  Proof.
    intros E. split; [|reflexivity]. intros c q Hc Hq. cbn [set_ft field_hat]. unfold project, exchanged. change (bcomp b') with (bcomp b). destruct (Bool.bool_dec v true) as [V|V]; [rewrite V|apply not_true_is_false in V; rewrite V, (E c q Hc Hq); unfold exchanged; rewrite V; reflexivity].
    assert (forall i, (i < 3)%nat -> H i q = F (xi i) (ex q)) as E' by (intros i Hi; rewrite (E i q Hi Hq); unfold exchanged; rewrite V; reflexivity).
    rewrite (E' c Hc), kd_ex by exact Hq. do 2 f_equal. rewrite <- (csum_exchange a (fun i => k_dir b i (ex q) * F i (ex q)) A). apply csum_ext. intros i Hi. rewrite (E' i Hi), kd_ex by exact Hq. reflexivity.
  Qed.
  Lemma set_field_twin f h : vagree 3 sh' h (xed f) -> twin (set_field b f) (set_field b' h).
  Proof.
    intros E. unfold set_field. rewrite extended_ex. destruct (extended b); apply set_ft_twin; [|exact E]. intros c q Hc Hq.
    rewrite (ft_ext sh' (h c) (fun p => f (sw c) (ex p)) q) by (intros p Hp; apply E; assumption). rewrite (ft_ex (f (sw c))), shift_ex by exact Hq. reflexivity.
  Qed.
  Lemma move_twin s t d : twin s t -> twin (move s d) (move t d).
  Proof. intros [F P]. split; [exact F|]. cbn. rewrite P. reflexivity. Qed.
  Lemma uniform_twin n : uniform b' (fun p => n (ex p)) = uniform b n.
  Proof.
    unfold uniform. rewrite ex_origin. apply eq_true_iff_eq. rewrite !forallb_forall. split; intros H p Hp; apply indices_inside in Hp.
    - specialize (H (ex p) (proj2 (indices_inside _ _) (ex_in' p Hp))). cbv beta in H. rewrite exchange_exchange in H. exact H.
    - exact (H (ex p) (proj2 (indices_inside _ _) (ex_in p Hp))).
  Qed.
  Lemma interact_twin s t d n : twin s t -> twin (interact b s d n) (interact b' t d (fun p => n (ex p))).
  Proof.
    intros S. unfold interact. rewrite uniform_twin, ex_origin. change (excess b') with (excess b). change (bk b') with (bk b). destruct (uniform b n).
    - destruct (tiny _); [exact S|]. destruct S as [F P]. split; [|exact P]. intros c q Hc Hq. cbn [field_hat]. rewrite (F c q Hc Hq). reflexivity.
    - apply set_field_twin. intros c p Hc Hp. rewrite (read_field_twin s t S c p Hc Hp). reflexivity.
  Qed.
  Lemma propagate_twin s t d m : twin s t -> twin (propagate b s d m) (propagate b' t d (exchanged_medium a m)).
  Proof.
    intros S. unfold propagate. assert (twin (if Rltb d 0 then move s d else s) (if Rltb d 0 then move t d else t)) as S1 by (destruct (Rltb d 0); [apply move_twin|]; exact S).
    destruct m as [n|]; cbn [exchanged_medium option_map].
    - pose proof (interact_twin _ _ d n S1) as S2. destruct (Rltb 0 d); [apply move_twin|]; exact S2.
    - destruct (Rltb 0 d); [apply move_twin|]; exact S1.
  Qed.
  Lemma act_twin s t x : twin s t -> twin (act b s x) (act b' t (exchanged_action v a x)).
  Proof.
    intros S. destruct x as [d m| | |F|f]; cbn [act exchanged_action]; [apply propagate_twin, S|apply settle_twin, S..|apply set_ft_twin; intros c q _ _; reflexivity|apply set_field_twin; intros c q _ _; reflexivity].
  Qed.
  Lemma run_twin l : forall s t, twin s t -> twin (run b s l) (run b' t (map (exchanged_action v a) l)).
  Proof. induction l as [|x l IH]; intros s t S; [exact S|]. unfold run in *. cbn [fold_left map]. apply IH, act_twin, S. Qed.
  Lemma beam_twin step media : forall s t, twin s t -> Forall2 (fun f f' : vfield => vagree 3 sh' f' (xed f)) (fst (beam_field b s step media)) (fst (beam_field b' t step (map (exchanged_medium a) media))).
  Proof.
    induction media as [|m media IH]; intros s t S; cbn [beam_field map fst]; constructor.
    - apply read_field_twin, propagate_twin, S.
    - apply IH, settle_twin, propagate_twin, S.
  Qed.
End Relabel.

Lemma exchanged_section a g axis : (a < 2)%nat -> section_grid g axis -> section_grid (exchanged_grid a g) (exchange_index a axis).
Proof.
  intros A (L & L' & N & O & X & Z). unfold section_grid, exchanged_grid. cbn [rshape rstep]. rewrite !exchange_length. repeat split; try assumption.
  - apply exchange_Forall, N.
  - rewrite exchange_nth, exchange_index_twice by lia. exact O.
  - apply exchange_index_less; lia.
  - intros c Hc. rewrite !exchange_nth by lia. apply Z. apply exchange_index_less; lia.
Qed.
Lemma exchanged_agree v a s F H : (a < 2)%nat -> vagree 3 s F H -> vagree 3 (exchange a s) (exchanged v a F) (exchanged v a H).
Proof.
  intros A E c p Hc Hp. unfold exchanged. apply E; [destruct v; [apply exchange_index_less; lia|exact Hc]|]. apply (exchange_inside a) in Hp. rewrite exchange_exchange in Hp. exact Hp.
Qed.
Definition both (b : setup) := section_grid (bgrid b) (baxis b) /\ (bcomp b = 1%nat \/ bcomp b = 3%nat).
Lemma both_exchanged a b : (a < 2)%nat -> both b -> both (exchanged_setup a b).
Proof. intros A [G N]. split; [apply exchanged_section; assumption|exact N]. Qed.
Lemma reordered_agree v axes : Forall (fun a => (a < 2)%nat) axes -> forall b F H, vagree 3 (bshape b) F H -> vagree 3 (bshape (reordered_setup axes b)) (reordered v axes F) (reordered v axes H).
Proof.
  intros HA. induction HA as [|a axes A HA IH]; intros b F H E; [exact E|]. unfold reordered_setup, reordered in *. cbn [fold_left]. apply IH, exchanged_agree; assumption.
Qed.
Lemma reordered_action_cons v a axes l : map (reordered_action v (a :: axes)) l = map (reordered_action v axes) (map (exchanged_action v a) l).
Proof. rewrite map_map. apply map_ext. intros x. reflexivity. Qed.
(** [first] is an assignment. *)
Lemma reordered_read axes : Forall (fun a => (a < 2)%nat) axes -> forall b l x s t, both b -> match x with SetFt _ | SetField _ => True | _ => False end ->
  let v := (1 <? bcomp b)%nat in let b' := reordered_setup axes b in
  vagree 3 (bshape b') (read_field b' (run b' t (map (reordered_action v axes) (x :: l)))) (reordered v axes (read_field b (run b s (x :: l)))) /\
  vagree 3 (bshape b') (read_ft b' (run b' t (map (reordered_action v axes) (x :: l)))) (reordered v axes (read_ft b (run b s (x :: l)))).
Proof.
  intros HA. induction HA as [|a axes A HA IH]; intros b l x s t B X v b'.
  - cbn [reordered_setup reordered fold_left] in *. subst b'. rewrite (map_ext _ (fun y => y)), map_id by reflexivity. destruct x; try contradiction; split; intros c q _ _; reflexivity.
  - rewrite reordered_action_cons. pose proof B as [G N].
    assert (twin b a (run b s (x :: l)) (run (exchanged_setup a b) s (map (exchanged_action v a) (x :: l)))) as T.
    { cbn [map]. unfold run. cbn [fold_left]. apply run_twin; try assumption. destruct x; try contradiction; cbn [exchanged_action act]; [apply set_ft_twin|apply set_field_twin]; try assumption; intros c q _ _; reflexivity. }
    destruct (IH (exchanged_setup a b) (map (exchanged_action v a) l) (exchanged_action v a x) s t (both_exchanged a b A B) ltac:(destruct x; exact X)) as [I1 I2].
    change (1 <? bcomp (exchanged_setup a b))%nat with v in *. split.
    + intros c q Hc Hq. etransitivity; [exact (I1 c q Hc Hq)|]. apply (reordered_agree v axes HA (exchanged_setup a b) _ _ (read_field_twin b a G A N _ _ T) c q Hc Hq).
    + intros c q Hc Hq. etransitivity; [exact (I2 c q Hc Hq)|]. apply (reordered_agree v axes HA (exchanged_setup a b) _ _ (read_twin b a G A N _ _ T) c q Hc Hq).
Qed.
Lemma reordered_beam axes : Forall (fun a => (a < 2)%nat) axes -> forall b f first step media, both b ->
  let v := (1 <? bcomp b)%nat in let b' := reordered_setup axes b in
  Forall2 (fun h h' : vfield => vagree 3 (bshape b') h' (reordered v axes h))
    (fst (beam_field b (enter b (set_field b f) first step) step media)) (fst (beam_field b' (enter b' (set_field b' (reordered v axes f)) first step) step (reordered_media axes media))).
Proof.
  intros HA. induction HA as [|a axes A HA IH]; intros b f first step media B v b'.
  - cbn. set (l := fst _). clearbody l. induction l; constructor; [intros c q _ _; reflexivity|assumption].
  - pose proof B as [G N].
    assert (twin b a (enter b (set_field b f) first step) (enter (exchanged_setup a b) (set_field (exchanged_setup a b) (exchanged v a f)) first step)) as T.
    { unfold enter. apply (propagate_twin b a G A N _ _ (first - step) None), set_field_twin; try assumption. intros c q _ _. reflexivity. }
    pose proof (beam_twin b a G A N step media _ _ T) as T1. specialize (IH (exchanged_setup a b) (exchanged v a f) first step (map (exchanged_medium a) media) (both_exchanged a b A B)). cbv zeta in IH. change (1 <? bcomp (exchanged_setup a b))%nat with v in *.
    change (reordered_setup axes (exchanged_setup a b)) with b' in IH. change (reordered v axes (exchanged v a f)) with (reordered v (a :: axes) f) in IH. change (reordered_media axes (map (exchanged_medium a) media)) with (reordered_media (a :: axes) media) in IH.
    revert T1 IH. generalize (fst (beam_field b (enter b (set_field b f) first step) step media)) as l. intros l T1. revert T1. set (l1 := fst _). set (l2 := fst _). clearbody l1 l2. intros T1. revert l2. induction T1 as [|h h1 l l1 E T1 IH1]; intros l2 T2; inversion T2 as [|? h2 ? l2' E2 T2']; subst; constructor.
    + intros c q Hc Hq. rewrite (E2 c q Hc Hq). apply (reordered_agree v axes HA (exchanged_setup a b) _ _ E c q Hc Hq).
    + apply IH1. exact T2'.
Qed.
