(** What an interrupted iteration leaves. *)
From Coq Require Import Reals Lra Lia List Arith ZArith Bool.
Require Import Verif.Base Verif.Cplx Verif.CSum Verif.Field Verif.Fourier_Model Verif.Vec_Model Verif.Solver_Model Verif.Derived_Model Verif.Run_Model Verif.Run_Spec.
Require Import Verif.Memory_Model Verif.Memory_Spec Verif.Memory_Proofs Verif.Memory_Steps Verif.Memory_Reads Verif.Memory_Sessions Verif.Interrupt_Model Verif.Interrupt_Spec Verif.Interrupt_Proofs.
Import ListNotations.
Local Open Scope R_scope.
Local Open Scope C_scope.

Section Cuts.
  Variables (lib : library) (aligned : loc -> bool) (junk : nat -> vfield) (u : si).
  (** What stays of the arrays. *)
  Definition rests (P : loc -> Prop) (h h' : heap) : Prop :=
    safe P h' /\ (created h <= created h')%nat /\ forall l, P l -> l <> Field -> l <> Source -> content h' l = content h l.
  Lemma rests_leaves (P : loc -> Prop) h h' : leaves P h h' -> rests P h h'.
  Proof. intros (A & B & D). split; [exact A|]. split; [exact D|]. intros l Hl _ _. exact (B l Hl). Qed.
  Lemma rests_write (P : loc -> Prop) h h' l v : l = Field \/ l = Source -> rests P h h' -> rests P h (write h' l v).
  Proof.
    intros Hl (A & B & D). split; [apply me_safe_write; exact A|]. split; [exact B|]. intros x Hx N1 N2. rewrite me_write_other by (destruct Hl; subst; assumption). apply D; assumption.
  Qed.
  Lemma solution_counted s h i r F S : content h Field = F -> content h Source = S ->
    solution_of {| rest := counted s i r; mem := h |} = counted (with_arrays s F S) i r.
  Proof. intros <- <-. reflexivity. Qed.

  (** The statements after the update. *)
  Lemma accept_stops (P : loc -> Prop) (s : solution) h0 h d i cur m' : rests P h0 h -> content h Field = content h0 Field -> content h Source = content h0 Source ->
    let t := with_arrays s (content h0 Field) (content h0 Source) in
    content h d = update (operators t) (field t) -> accepts t -> cur = norm (operators t) (update (operators t) (field t)) ->
    stops (_ <== on_arrays (change Field d plus) ;; _ <== on_self (fun s => set_prev_norm s (Fin cur)) ;; Done (@None pyexc)) {| rest := counted s i None; mem := h |} m' ->
    rests P h0 (mem m') /\ ((exists j r, (r = None \/ r = residue_cache t) /\ solution_of m' = counted t j r) \/
      (exists j, solution_of m' = counted (set_field t (next_field (operators t) (field t))) j None) \/
      solution_of m' = counted (set_prev_norm (set_field t (next_field (operators t) (field t))) (Fin cur)) i None).
  Proof.
    intros R EF ES t V A Hc H. cbn in H. destruct H as [H|[H|H]]; subst m'; cbn [mem].
    - split; [exact R|]. left. exists i, None. split; [left; reflexivity|]. apply solution_counted; assumption.
    - split; [apply rests_write; [left; reflexivity|exact R]|]. right. left. exists i. unfold solution_of. cbn [rest mem].
      rewrite me_write_same, me_write_other by discriminate. rewrite V, EF, ES. reflexivity.
    - split; [apply rests_write; [left; reflexivity|exact R]|]. right. right. unfold solution_of. cbn [rest mem].
      rewrite me_write_same, me_write_other by discriminate. rewrite V, EF, ES. reflexivity.
  Qed.
  Lemma reject_stops (P : loc -> Prop) (s : solution) h0 h o alpha i m' : rests P h0 h -> content h Field = content h0 Field -> content h Source = content h0 Source ->
    let t := with_arrays s (content h0 Field) (content h0 Source) in
    stops (_ <== update_operators_p o alpha ;; Done (@None pyexc)) {| rest := counted s i None; mem := h |} m' ->
    rests P h0 (mem m') /\ exists o' j, solution_of m' = counted (set_operators t o') j None.
  Proof.
    intros R EF ES t H. cbn in H. destruct H as [H|H].
    { subst m'. split; [exact R|]. exists (operators t), i. unfold solution_of. cbn [rest mem]. rewrite EF, ES. reflexivity. }
    assert (forall f, rests P h0 (mem {| rest := f; mem := write h Source (times (content h Source) (im (o_alpha o) / im alpha)) |})) as RW.
    { intros f. cbn [mem]. apply rests_write; [right; reflexivity|exact R]. }
    assert (forall o1, exists o' j, solution_of {| rest := set_operators (counted s i None) o1; mem := write h Source (times (content h Source) (im (o_alpha o) / im alpha)) |} = counted (set_operators t o') j None) as HS.
    { intros o1. exists (sourced o1 (times (content h Source) (im (o_alpha o) / im alpha))), i. unfold solution_of. cbn [rest mem].
      rewrite me_write_same, me_write_other by discriminate. rewrite EF. reflexivity. }
    repeat (destruct H as [H|H]); subst m'; (split; [apply RW|]);
      first [exact (HS (operators s)) | exact (HS _)].
  Qed.
  Lemma next_stops (P : loc -> Prop) fresh m m' : safe P (mem m) -> P Field -> P Source -> stops (next_p lib aligned junk fresh) m m' ->
    rests P (mem m) (mem m') /\ halted (solution_of m) (solution_of m').
  Proof.
    intros Hs PF PS H. destruct m as [s h]. cbn [mem] in *. set (t := solution_of {| rest := s; mem := h |}).
    set (i := (if fresh then 1 else iteration s + 1)%Z).
    assert (rests P h h) as R0 by (apply rests_leaves, leaves_refl; exact Hs).
    assert (forall j r, r = None \/ r = residue_cache s -> rests P h h /\ halted t (solution_of {| rest := counted s j r; mem := h |})) as H0.
    { intros j r Hr. split; [exact R0|]. apply (nothing_done _ _ j r); [exact Hr|]. reflexivity. }
    assert (rests P (mem m') (mem m') -> True) as _ by trivial.
    assert (m' = {| rest := s; mem := h |} \/ m' = {| rest := set_iteration s 0; mem := h |} \/ m' = {| rest := set_iteration s i; mem := h |} \/
      stops (s <== self ;; d <== update_p lib aligned junk (operators s) ;; v <== on_arrays (get d) ;;
        let current := norm (operators s) v in
        let accept := _ <== on_arrays (change Field d plus) ;; _ <== on_self (fun s => set_prev_norm s (Fin current)) ;; Done None in
        let reject := _ <== update_operators_p (operators s) (fst (o_alpha (operators s)), (15 / 10 * snd (o_alpha (operators s)))%R) ;; Done None in
        match prev_norm s with Inf => accept | Fin x => if Req_EM_T x 0 then Done (Some ZeroDivisionError) else if Rlt_dec (current / x) 1 then accept else reject end)
        {| rest := counted s i None; mem := h |} m') as C.
    { unfold next_p in H. subst i. destruct fresh.
      - destruct H as [H|[H|[H|H]]]; [left; exact H|right; left; exact H|right; right; left; exact H|right; right; right; exact H].
      - destruct H as [H|[H|H]]; [left; exact H|right; right; left; exact H|right; right; right; exact H]. }
    clear H. destruct C as [C|[C|[C|C]]].
    { subst m'. exact (H0 (iteration s) (residue_cache s) (or_intror eq_refl)). }
    { subst m'. exact (H0 0%Z (residue_cache s) (or_intror eq_refl)). }
    { subst m'. exact (H0 i (residue_cache s) (or_intror eq_refl)). }
    destruct C as [C|C]. { subst m'. exact (H0 i None (or_introl eq_refl)). }
    cbn [seq rest] in C. change (operators (counted s i None)) with (operators s) in C. change (prev_norm (counted s i None)) with (prev_norm s) in C.
    apply stops_seq in C. destruct (calm_update lib aligned junk P (s_buffer P h Hs) (s_work P h Hs) 0 (operators s) {| rest := counted s i None; mem := h |} Hs (Nat.le_0_l _)) as (A & _).
    assert (forall m1, rest m1 = counted s i None -> leaves P h (mem m1) -> rests P h (mem m1) /\ halted t (solution_of m1)) as Hu.
    { intros [s1 h1] Er L. cbn [rest mem] in *. subst s1. split; [apply rests_leaves; exact L|]. apply (nothing_done _ _ i None); [left; reflexivity|].
      apply solution_counted; apply (proj1 (proj2 L)); assumption. }
    destruct C as [C|C]. { destruct (A m' C) as (A1 & A2). apply Hu; assumption. }
    rewrite (update_mirrors lib aligned junk (operators s)) in C. cbn [mem rest] in C.
    destruct (me_update lib aligned junk P h (operators s) Hs PF PS) as (d & h1 & E & L & V & _). rewrite E in C.
    destruct C as [C|C]. { subst m'. apply Hu; [reflexivity|exact L]. }
    cbn [fst snd get rest mem seq] in C.
    assert (rests P h h1) as R1 by (apply rests_leaves; exact L).
    pose proof (proj1 (proj2 L) Field PF) as EF. pose proof (proj1 (proj2 L) Source PS) as ES.
    assert (content h1 d = update (operators t) (field t)) as Vt by exact V.
    assert (norm (operators s) (content h1 d) = norm (operators t) (update (operators t) (field t))) as HN by (rewrite Vt; reflexivity).
    rewrite HN in C. set (cur := norm (operators t) (update (operators t) (field t))) in C.
    assert (prev_norm t = prev_norm s) as Hp by reflexivity.
    assert (accepts t -> stops (_ <== on_arrays (change Field d plus) ;; _ <== on_self (fun s => set_prev_norm s (Fin cur)) ;; Done (@None pyexc)) {| rest := counted s i None; mem := h1 |} m' -> rests P h (mem m') /\ halted t (solution_of m')) as Hacc.
    { intros Ha C'. destruct (accept_stops P s h h1 d i cur m' R1 EF ES Vt Ha eq_refl C') as (R & [(j & r & Hr & Q)|[(j & Q)|Q]]); (split; [exact R|]).
      - exact (nothing_done _ _ j r Hr Q).
      - exact (field_only _ _ j Ha Q).
      - assert (next fresh t = (counted (set_prev_norm (set_field t (next_field (operators t) (field t))) (Fin cur)) i None, None)) as EN.
        { unfold next. set (t1 := set_residue _ None). assert (t1 = counted t i None) as -> by (subst t1 i; destruct fresh; reflexivity). unfold accepts in Ha.
          change (prev_norm (counted t i None)) with (prev_norm t). change (operators (counted t i None)) with (operators t). change (field (counted t i None)) with (field t). fold cur.
          fold cur in Ha. destruct (prev_norm t) as [q|]; [|reflexivity]. destruct Ha as (Hq & Hl). destruct (Req_EM_T q 0) as [Z|_]; [contradiction|]. destruct (Rlt_dec (cur / q) 1) as [_|Z]; [reflexivity|contradiction]. }
        apply (all_done _ _ fresh); rewrite EN; [reflexivity|exact Q]. }
    destruct (prev_norm s) as [q|] eqn:Eq.
    - destruct (Req_EM_T q 0) as [Z|Z]. { cbn in C. subst m'. apply Hu; [reflexivity|exact L]. }
      destruct (Rlt_dec (cur / q) 1) as [Y|Y].
      + apply Hacc; [|exact C]. unfold accepts. rewrite Hp. split; [exact Z|exact Y].
      + destruct (reject_stops P s h h1 _ _ i m' R1 EF ES C) as (R & o' & j & Q). split; [exact R|]. apply (other _ _ o' j); [|exact Q]. unfold refuses. rewrite Hp. split; [exact Z|exact Y].
    - apply Hacc; [|exact C]. unfold accepts. rewrite Hp. exact I.
  Qed.
  (** All statements together are an iteration. *)
  Lemma next_finishes fresh m : finish (next_p lib aligned junk fresh) m = (snd (next_m lib aligned junk fresh m), fst (next_m lib aligned junk fresh m)).
  Proof.
    destruct m as [s h]. unfold next_p. rewrite !finish_seq.
    assert (forall s1, finish (s <== self ;; d <== update_p lib aligned junk (operators s) ;; v <== on_arrays (get d) ;;
        let current := norm (operators s) v in
        let accept := _ <== on_arrays (change Field d plus) ;; _ <== on_self (fun s => set_prev_norm s (Fin current)) ;; Done None in
        let reject := _ <== update_operators_p (operators s) (fst (o_alpha (operators s)), (15 / 10 * snd (o_alpha (operators s)))%R) ;; Done None in
        match prev_norm s with Inf => accept | Fin x => if Req_EM_T x 0 then Done (Some ZeroDivisionError) else if Rlt_dec (current / x) 1 then accept else reject end)
        {| rest := s1; mem := h |} =
      (let o := operators s1 in let (d, h) := update_m lib aligned junk o h in let current := norm o (content h d) in
       let accepted := {| rest := set_prev_norm s1 (Fin current); mem := snd (change Field d plus h) |} in
       let alpha := (fst (o_alpha o), (15 / 10 * snd (o_alpha o))%R) in
       let rejected := {| rest := set_operators s1 (update_operators o alpha); mem := snd (change1 Source (fun S => times S (im (o_alpha o) / im alpha)) h) |} in
       match prev_norm s1 with
       | Inf => (None, accepted)
       | Fin x => if Req_EM_T x 0 then (Some ZeroDivisionError, {| rest := s1; mem := h |}) else if Rlt_dec (current / x) 1 then (None, accepted) else (None, rejected)
       end)) as HF.
    { intros s1. rewrite finish_seq. cbn [self finish rest]. rewrite finish_seq, (update_mirrors lib aligned junk (operators s1)). cbn [mem rest].
      destruct (update_m lib aligned junk (operators s1) h) as [d h1]. cbn [finish on_arrays seq get mem rest]. destruct (prev_norm s1) as [x|]; [|reflexivity].
      destruct (Req_EM_T x 0); [reflexivity|]. destruct (Rlt_dec _ 1); reflexivity. }
    destruct fresh.
    - cbn [finish on_self rest mem]. rewrite finish_seq. cbn [finish on_self rest mem]. rewrite finish_seq. cbn [finish on_self rest mem]. rewrite HF. unfold next_m. cbn [rest mem].
      destruct (update_m _ _ _ _ h) as [d h1]. destruct (prev_norm _) as [x|]; [|reflexivity]. destruct (Req_EM_T x 0); [reflexivity|]. destruct (Rlt_dec _ 1); reflexivity.
    - cbn [finish on_self rest mem]. rewrite finish_seq. cbn [finish on_self rest mem]. rewrite finish_seq. cbn [finish on_self rest mem]. rewrite HF. unfold next_m. cbn [rest mem].
      destruct (update_m _ _ _ _ h) as [d h1]. destruct (prev_norm _) as [x|]; [|reflexivity]. destruct (Req_EM_T x 0); [reflexivity|]. destruct (Rlt_dec _ 1); reflexivity.
  Qed.
End Cuts.
