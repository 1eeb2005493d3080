(** The operators of the iteration and the properties of a Solution, on its arrays. *)
From Coq Require Import Reals List Arith Bool ZArith Lia FunctionalExtensionality.
Require Import Verif.Base Verif.Cplx Verif.CSum Verif.Field Verif.Fourier_Model Verif.Vec_Model Verif.Solver_Model Verif.Derived_Model Verif.Run_Model.
Require Import Verif.Memory_Model Verif.Memory_Spec Verif.Memory_Proofs.
Import ListNotations.
Local Open Scope R_scope.
Local Open Scope C_scope.

(** A result with value v, in an array that nothing else refers to when [private] holds. *)
Definition returns (P : loc -> Prop) (h : heap) (x : loc * heap) (v : vfield) (private : Prop) : Prop :=
  exists r h', x = (r, h') /\ leaves P h h' /\ content h' r = v /\ ~ P r /\ here h' r /\ r <> Spectrum /\ r <> Work
  /\ (private -> leaves (also P r) h' h').

Lemma me_returns_weaken : forall (P : loc -> Prop) h x v (a b : Prop), (b -> a) -> returns P h x v a -> returns P h x v b.
Proof.
  intros P h x v a b H (r & h' & E & L & V & N & Hr & N1 & N2 & p). exists r, h'.
  split; [exact E|]. split; [exact L|]. split; [exact V|]. split; [exact N|]. split; [exact Hr|]. split; [exact N1|]. split; [exact N2|].
  intros B. apply p. now apply H.
Qed.
Lemma me_returns_smaller : forall (P Q : loc -> Prop) h x v a, (forall l, P l -> Q l) -> returns Q h x v a -> returns P h x v a.
Proof.
  intros P Q h x v a H (r & h' & E & L & V & N & Hr & N1 & N2 & p). exists r, h'.
  split; [exact E|]. split; [eapply me_leaves_weaken; eauto|]. split; [exact V|]. split; [intros X; apply N; now apply H|].
  split; [exact Hr|]. split; [exact N1|]. split; [exact N2|].
  intros A. eapply me_leaves_weaken; [|exact (p A)]. intros l [X|X]; [left; now apply H | now right].
Qed.
Lemma me_returns_after : forall (P : loc -> Prop) h1 h2 x v a, leaves P h1 h2 -> returns P h2 x v a -> returns P h1 x v a.
Proof.
  intros P h1 h2 x v a L1 (r & h' & E & L & V & N & Hr & N1 & N2 & p). exists r, h'.
  split; [exact E|]. split; [eapply me_leaves_trans; eauto|]. tauto.
Qed.
Lemma me_new_returns : forall (P : loc -> Prop) h f, safe P h -> returns P h (new f h) f True.
Proof.
  intros P h f S. destruct (me_new P h f S) as (h' & E & L & K & C & V & N & F1 & F2 & K'). exists (New (created h)), h'.
  split; [exact E|]. split; [split; [eapply me_safe_weaken; [|exact (proj1 L)]; apply me_also_l|]; split; [exact K | lia]|].
  split; [exact V|]. split; [exact N|]. split; [simpl; lia|]. split; [discriminate|]. split; [discriminate|]. intros _. exact L.
Qed.
Lemma me_ret : forall (P : loc -> Prop) h l, safe P h -> ~ P l -> here h l -> l <> Spectrum -> l <> Work -> forall a : Prop, (a -> leaves (also P l) h h) ->
  returns P h (ret l h) (content h l) a.
Proof.
  intros P h l S N Hl N1 N2 a Ha. exists l, h. split; [reflexivity|]. split; [split; [exact S|]; split; [apply me_keeps_refl | lia]|].
  split; [reflexivity|]. tauto.
Qed.
Lemma me_change1 : forall (P : loc -> Prop) h l f, safe P h -> ~ P l ->
  exists h', change1 l f h = (tt, h') /\ leaves P h h' /\ content h' l = f (content h l) /\ (forall x, x <> l -> content h' x = content h x)
  /\ created h' = created h /\ fft_input h' = fft_input h /\ ifft_input h' = ifft_input h.
Proof.
  intros P h l f S N. exists (write h l (f (content h l))). split; [reflexivity|].
  split; [exact (me_put P h l (f (content h l)) S N)|]. split; [apply me_write_same|]. split; [intros; now apply me_write_other|]. now repeat split.
Qed.
Lemma me_change : forall (P : loc -> Prop) h l y f, safe P h -> ~ P l ->
  exists h', change l y f h = (tt, h') /\ leaves P h h' /\ content h' l = f (content h l) (content h y)
  /\ (forall x, x <> l -> content h' x = content h x)
  /\ created h' = created h /\ fft_input h' = fft_input h /\ ifft_input h' = ifft_input h.
Proof.
  intros P h l y f S N. exists (write h l (f (content h l) (content h y))). split; [reflexivity|].
  split; [exact (me_put P h l (f (content h l) (content h y)) S N)|]. split; [apply me_write_same|].
  split; [intros; now apply me_write_other|]. now repeat split.
Qed.

Lemma me_longitudinal : forall (P : loc -> Prop) h g f, safe P h -> f <> Buffer -> f <> Work ->
  exists h', longitudinal_m g f h = (Buffer, h') /\ leaves P h h' /\ content h' Buffer = longitudinal_ft g (content h f) /\ content h' f = content h f
  /\ created h' = created h.
Proof.
  intros P h g f S Nb Nw. unfold longitudinal_m, bindm, get, ret.
  set (s0 := fun (_ : nat) p => csum (rndim g) (fun i => RtoC (kvec g i p) * content h f i p)).
  pose proof (me_put P h Work s0 S (s_work P h S)) as L1. unfold put in *. cbn [snd] in L1.
  destruct (me_change1 P (write h Work s0) Work (fun w c p => if is_origin p then w c p else w c p / RtoC (k2 g p)) (proj1 L1) (s_work P h S))
    as (h2 & E2 & L2 & V2 & K2 & C2 & _). rewrite E2.
  set (b := fun (c : nat) p => if Nat.ltb c (rndim g) then if is_origin p then content h f c p else RtoC (kvec g c p) * content h2 Work 0%nat p else 0).
  exists (write h2 Buffer b). split; [reflexivity|].
  split; [eapply me_leaves_trans; [exact L1|]; eapply me_leaves_trans; [exact L2|]; exact (me_put P h2 Buffer b (proj1 L2) (s_buffer P h S))|].
  split.
  - rewrite me_write_same. subst b. unfold longitudinal_ft. apply functional_extensionality; intros c. apply functional_extensionality; intros p.
    rewrite V2, me_write_same. unfold s0. destruct (is_origin p); reflexivity.
  - split; [|rewrite <- (eq_refl : created (write h Work s0) = created h); exact C2].
    rewrite (me_write_other h2 Buffer b f) by exact Nb. rewrite (K2 f) by exact Nw. apply me_write_other; exact Nw.
Qed.

Section Steps.
  Variables (lib : library) (aligned : loc -> bool) (junk : nat -> vfield).
  Notation curlm := (curl_m lib aligned junk).
  Notation chim := (chi_m lib aligned junk).
  Notation greenm := (green_m lib aligned junk).
  Notation updatem := (update_m lib aligned junk).
  Notation sharing := (shared lib).

  Lemma me_curl : forall (P : loc -> Prop) h o l, safe P h -> ~ P l -> l <> Spectrum -> here h l ->
    returns P h (curlm o l h) (curl (o_grid o) (vector_length o) (content h l)) (sharing (shape o) true = false).
  Proof.
    intros P h o l S Nl Ns Hl. unfold curl_m, bindm.
    destruct (me_ft lib aligned junk P h (shape o) true l S Nl Ns Hl) as (f & h1 & E1 & L1 & V1 & _). rewrite E1. unfold get.
    destruct (me_new_returns P h1 (curl_ft (o_grid o) (vector_length o) (vector_length o) (content h1 f)) (proj1 L1))
      as (c & h2 & E2 & L2 & V2 & N2 & H2 & _). rewrite E2.
    assert (Nc : c <> Buffer) by (unfold new in E2; injection E2 as E2 _; rewrite <- E2; discriminate).
    destruct (me_ift lib aligned junk P h2 (shape o) true c (proj1 L2) N2 Nc H2) as (r & h3 & E3 & L3 & V3 & N3 & H3 & A3 & B3 & p). rewrite E3.
    exists r, h3. split; [reflexivity|]. split; [eapply me_leaves_trans; [exact L1|]; eapply me_leaves_trans; eauto|].
    split; [rewrite V3, V2, V1; reflexivity|]. auto.
  Qed.

  Lemma me_green : forall (P : loc -> Prop) h o l, safe P h -> ~ P l -> l <> Spectrum -> here h l ->
    returns P h (greenm o l h) (green_op o (content h l)) False.
  Proof.
    intros P h o l S Nl Ns Hl. unfold green_m, bindm.
    destruct (me_ft lib aligned junk P h (shape o) true l S Nl Ns Hl) as (f & h1 & E1 & L1 & V1 & N1 & H1 & B1 & W1 & _). rewrite E1.
    assert (X : exists h2, (if o_vectorial o then
             p <-- longitudinal_m (o_grid o) f ;;
             _ <-- change f p minus ;;
             _ <-- change1 f (fun F c q => F c q * g_scalar o q) ;;
             _ <-- change1 p (fun F => times F (Ci * im (o_alpha o) / o_alpha o)) ;;
             change f p plus
           else change1 f (fun F c q => F c q * g_scalar o q)) h1 = (tt, h2) /\ leaves P h1 h2 /\ content h2 f = g_ft_op o (content h1 f) /\ here h2 f).
    { unfold g_ft_op. destruct (o_vectorial o).
      - unfold bindm. destruct (me_longitudinal P h1 (o_grid o) f (proj1 L1) B1 W1) as (h2 & E2 & L2 & V2 & F2 & C2). rewrite E2.
        destruct (me_change P h2 f Buffer minus (proj1 L2) N1) as (h3 & E3 & L3 & V3 & K3 & C3 & _). rewrite E3.
        destruct (me_change1 P h3 f (fun F c q => F c q * g_scalar o q) (proj1 L3) N1) as (h4 & E4 & L4 & V4 & K4 & C4 & _). rewrite E4.
        destruct (me_change1 P h4 Buffer (fun F => times F (Ci * im (o_alpha o) / o_alpha o)) (proj1 L4) (s_buffer P h S))
          as (h5 & E5 & L5 & V5 & K5 & C5 & _). rewrite E5.
        destruct (me_change P h5 f Buffer plus (proj1 L5) N1) as (h6 & E6 & L6 & V6 & K6 & C6 & _). rewrite E6.
        exists h6. split; [reflexivity|].
        split; [eapply me_leaves_trans; [exact L2|]; eapply me_leaves_trans; [exact L3|]; eapply me_leaves_trans; [exact L4|];
                eapply me_leaves_trans; [exact L5 | exact L6]|].
        split.
        + rewrite V6, V5, (K5 f B1), V4, V3. rewrite (K4 Buffer) by (intros Q; apply B1; now symmetry).
          rewrite (K3 Buffer) by (intros Q; apply B1; now symmetry). rewrite V2, F2. reflexivity.
        + eapply me_here_le; [|exact H1]. rewrite C6, C5, C4, C3, C2. lia.
      - destruct (me_change1 P h1 f (fun F c q => F c q * g_scalar o q) (proj1 L1) N1) as (h2 & E2 & L2 & V2 & K2 & C2 & _).
        exists h2. split; [exact E2|]. split; [exact L2|]. split; [exact V2|]. eapply me_here_le; [|exact H1]. rewrite C2. lia. }
    destruct X as (h2 & E2 & L2 & V2 & H2). unfold bindm in E2. rewrite E2.
    destruct (me_ift lib aligned junk P h2 (shape o) true f (proj1 L2) N1 B1 H2) as (r & h3 & E3 & L3 & V3 & N3 & H3 & A3 & B3 & p). rewrite E3.
    exists r, h3. split; [reflexivity|]. split; [eapply me_leaves_trans; [exact L1|]; eapply me_leaves_trans; eauto|].
    split; [rewrite V3, V2, V1; reflexivity|]. tauto.
  Qed.

  Lemma me_mul_out : forall (P : loc -> Prop) h t l, safe P h -> ~ P l -> here h l -> l <> Spectrum -> l <> Work ->
    exists r h', mul_out lib t l h = (r, h') /\ leaves P h h' /\ content h' r = tapply t (content h l) /\ ~ P r /\ here h' r /\ r <> Spectrum /\ r <> Work
    /\ (forall x, here h x -> x <> l -> content h' x = content h x /\ x <> r) /\ fft_input h' = fft_input h /\ ifft_input h' = ifft_input h
    /\ (created h <= created h')%nat.
  Proof.
    intros P h t l S Nl Hl A B.
    assert (X : exists r h', (_ <-- change1 l (tapply t) ;; ret l) h = (r, h') /\ leaves P h h' /\ content h' r = tapply t (content h l) /\ ~ P r /\ here h' r
      /\ r <> Spectrum /\ r <> Work /\ (forall x, here h x -> x <> l -> content h' x = content h x /\ x <> r) /\ fft_input h' = fft_input h
      /\ ifft_input h' = ifft_input h /\ (created h <= created h')%nat).
    { destruct (me_change1 P h l (tapply t) S Nl) as (h1 & E1 & L1 & V1 & K1 & C1 & I1 & J1). exists l, h1. unfold bindm, ret. rewrite E1.
      split; [reflexivity|]. split; [exact L1|]. split; [exact V1|]. split; [exact Nl|]. split; [eapply me_here_le; [|exact Hl]; lia|].
      split; [exact A|]. split; [exact B|]. split; [intros x _ Hx; split; [now apply K1 | exact Hx]|]. split; [exact I1|]. split; [exact J1 | lia]. }
    unfold mul_out. destruct lib; try exact X. destruct t; [exact X|]. clear X.
    unfold bindm, get. destruct (me_new P h (tapply (TMatrix m) (content h l)) S) as (h1 & E1 & L1 & K1 & C1 & V1 & N1 & I1 & J1 & F1). rewrite E1.
    exists (New (created h)), h1. split; [reflexivity|]. split; [split; [eapply me_safe_weaken; [|exact (proj1 L1)]; apply me_also_l|]; split; [exact K1 | lia]|].
    split; [exact V1|]. split; [exact N1|]. split; [simpl; lia|]. split; [discriminate|]. split; [discriminate|].
    split; [intros x Hx _; split; [now apply F1 | intros ->; simpl in Hx; lia]|]. split; [exact I1|]. split; [exact J1 | lia].
  Qed.

  Lemma me_chi : forall (P : loc -> Prop) h o l, safe P h -> ~ P l -> l <> Spectrum -> l <> Work -> here h l ->
    returns P h (chim o l h) (chi_op o (content h l)) False.
  Proof.
    intros P h o l S Nl Ns Nw Hl. unfold chi_m, chi_op. destruct (o_magnetic o).
    2: { destruct (me_mul_out P h (o_chiEE o) l S Nl Hl Ns Nw) as (r & h1 & E1 & L1 & V1 & N1 & H1 & A1 & B1 & _).
         exists r, h1. split; [exact E1|]. split; [exact L1|]. split; [exact V1|]. tauto. }
    unfold bindm, get.
    destruct (me_new P h (tapply (o_chiEE o) (content h l)) S) as (h1 & E1 & L1 & K1 & C1 & V1 & N1 & _ & _ & F1). rewrite E1.
    set (a := New (created h)) in *.
    destruct (me_new (also P a) h1 (tapply (o_chiEH o) (content h l)) (proj1 L1)) as (h2 & E2 & L2 & K2 & C2 & V2 & N2 & _ & _ & F2). rewrite E2.
    set (b := New (created h1)) in *.
    assert (Hl2 : content h2 l = content h l).
    { rewrite F2 by (eapply me_here_le; [|exact Hl]; lia). now apply F1. }
    assert (La : l <> a) by (intros ->; simpl in Hl; lia).
    assert (Lb : l <> b) by (intros ->; simpl in Hl; lia).
    assert (Ab : a <> b) by (unfold a, b; intros Q; injection Q; lia).
    destruct (me_curl (also (also P a) b) h2 o l (proj1 L2)) as (d & h3 & E3 & L3 & V3 & N3 & H3 & A3 & B3 & _).
    { intros [[Q|Q]|Q]; auto. }
    { exact Ns. }
    { eapply me_here_le; [|exact Hl]. lia. }
    rewrite E3.
    assert (Da : d <> a) by (intros Q; apply N3; left; right; exact Q).
    assert (Db : d <> b) by (intros Q; apply N3; right; exact Q).
    destruct (me_new (also (also P a) b) h3 (tapply (o_chiHE o) (content h3 d)) (proj1 L3)) as (h4 & E4 & L4 & K4 & C4 & V4 & N4 & _ & _ & F4). rewrite E4.
    set (t := New (created h3)) in *.
    assert (Dt : d <> t) by (intros ->; simpl in H3; lia).
    assert (Pd : ~ P d) by (intros Q; apply N3; left; left; exact Q).
    assert (Pb : ~ P b) by (intros Q; apply N2; left; exact Q).
    assert (S4 : safe P h4) by (eapply me_safe_weaken; [|exact (proj1 L4)]; intros x Hx; left; left; left; exact Hx).
    destruct (me_change P h4 a t plus S4 N1) as (h5 & E5 & L5 & V5 & K5 & C5 & I5 & J5). rewrite E5.
    destruct (me_mul_out P h5 (o_chiHH o) d (proj1 L5) Pd) as (y & h6 & E6 & L6 & V6 & N6 & H6 & A6 & B6 & K6 & I6 & J6 & C6).
    { eapply me_here_le; [|exact H3]. rewrite C5. lia. }
    { exact A3. }
    { exact B3. }
    rewrite E6.
    assert (H5a : here h5 a) by (simpl; rewrite C5; pose proof (proj2 (proj2 L3)); lia).
    assert (H5b : here h5 b) by (simpl; rewrite C5; pose proof (proj2 (proj2 L3)); lia).
    destruct (me_change P h6 b y plus (proj1 L6) Pb) as (h7 & E7 & L7 & V7 & K7 & C7 & I7 & J7). rewrite E7.
    assert (S7 : safe (also P a) h7).
    { assert (Z : safe (also P a) h4) by (eapply me_safe_weaken; [|exact (proj1 L4)]; intros x Hx; left; left; exact Hx).
      destruct Z. constructor; try assumption; rewrite ?I7, ?I6, ?I5, ?J7, ?J6, ?J5; auto.
      - eapply me_here_le; [|exact s_fft_here]. rewrite C7. lia.
      - eapply me_here_le; [|exact s_ifft_here]. rewrite C7. lia.
      - intros x Hx. eapply me_here_le; [|exact (s_here _ Hx)]. rewrite C7. lia. }
    destruct (me_curl (also P a) h7 o b S7) as (e & h8 & E8 & L8 & V8 & N8 & H8 & A8 & B8 & _).
    { intros [Q|Q]; auto. }
    { discriminate. }
    { simpl. rewrite C7. simpl in H5b. lia. }
    rewrite E8.
    assert (S8 : safe P h8) by (eapply me_safe_weaken; [|exact (proj1 L8)]; apply me_also_l).
    destruct (me_change P h8 a e plus S8 N1) as (h9 & E9 & L9 & V9 & K9 & C9 & _). rewrite E9.
    (* values *)
    assert (Va4 : content h4 a = tapply (o_chiEE o) (content h l)).
    { rewrite (K4 a) by (left; right; reflexivity). rewrite (proj1 (proj2 L3) a) by (left; right; reflexivity).
      rewrite (K2 a) by (right; reflexivity). exact V1. }
    assert (Vb4 : content h4 b = tapply (o_chiEH o) (content h l)).
    { rewrite (K4 b) by (right; reflexivity). rewrite (proj1 (proj2 L3) b) by (right; reflexivity). exact V2. }
    assert (Vd4 : content h4 d = curl (o_grid o) (vector_length o) (content h l)) by (rewrite (F4 d H3), V3, Hl2; reflexivity).
    assert (Va7 : content h7 a = plus (tapply (o_chiEE o) (content h l)) (tapply (o_chiHE o) (curl (o_grid o) (vector_length o) (content h l)))).
    { rewrite (K7 a Ab), (proj1 (K6 a H5a (fun Q => Da (eq_sym Q)))). rewrite V5, Va4, V4. rewrite (F4 d H3) in Vd4. rewrite Vd4. reflexivity. }
    assert (Vb7 : content h7 b = plus (tapply (o_chiEH o) (content h l)) (tapply (o_chiHH o) (curl (o_grid o) (vector_length o) (content h l)))).
    { rewrite V7, V6, (proj1 (K6 b H5b (fun Q => Db (eq_sym Q)))). rewrite (K5 b) by auto. rewrite (K5 d Da), Vb4, Vd4. reflexivity. }
    assert (Va9 : content h9 a = (fun c p => plus (tapply (o_chiEE o) (content h l)) (tapply (o_chiHE o) (curl (o_grid o) (vector_length o) (content h l))) c p
      + curl (o_grid o) (vector_length o) (plus (tapply (o_chiEH o) (content h l)) (tapply (o_chiHH o) (curl (o_grid o) (vector_length o) (content h l)))) c p)).
    { rewrite V9, V8, Vb7. rewrite (proj1 (proj2 L8) a) by (right; reflexivity). rewrite Va7. reflexivity. }
    exists a, h9. split; [reflexivity|]. split.
    { assert (T1 : leaves P h h1) by (split; [eapply me_safe_weaken; [|exact (proj1 L1)]; apply me_also_l|]; split; [exact K1 | lia]).
      assert (T2 : leaves P h1 h2).
      { split; [eapply me_safe_weaken; [|exact (proj1 L2)]; intros x Hx; left; left; exact Hx|]. split; [|lia].
        eapply me_keeps_weaken; [|exact K2]. apply me_also_l. }
      assert (T3 : leaves P h2 h3) by (eapply me_leaves_weaken; [|exact L3]; intros x Hx; left; left; exact Hx).
      assert (T4 : leaves P h3 h4).
      { split; [exact S4|]. split; [|lia]. eapply me_keeps_weaken; [|exact K4]. intros x Hx. left; left; exact Hx. }
      assert (T8 : leaves P h7 h8) by (eapply me_leaves_weaken; [|exact L8]; apply me_also_l).
      eapply me_leaves_trans; [exact T1|]. eapply me_leaves_trans; [exact T2|]. eapply me_leaves_trans; [exact T3|].
      eapply me_leaves_trans; [exact T4|]. eapply me_leaves_trans; [exact L5|]. eapply me_leaves_trans; [exact L6|].
      eapply me_leaves_trans; [exact L7|]. eapply me_leaves_trans; [exact T8 | exact L9]. }
    split; [exact Va9|]. split; [exact N1|].
    split; [simpl; rewrite C9; simpl in H5a; pose proof (proj2 (proj2 L8)); lia|].
    split; [discriminate|]. split; [discriminate | tauto].
  Qed.

  Lemma me_update : forall (P : loc -> Prop) h o, safe P h -> P Field -> P Source -> 
    returns P h (updatem o h) (update {| o_grid := o_grid o; o_vectorial := o_vectorial o; o_magnetic := o_magnetic o; o_alpha := o_alpha o;
      o_beta := o_beta o; o_chiEE := o_chiEE o; o_chiEH := o_chiEH o; o_chiHE := o_chiHE o; o_chiHH := o_chiHH o; o_source := content h Source |}
      (content h Field)) False.
  Proof.
    intros P h o S PF PS. unfold update_m, bindm.
    destruct (me_change P h Buffer Field (fun _ F => F) S (s_buffer P h S)) as (h1 & E1 & L1 & V1 & K1 & C1 & _). rewrite E1.
    destruct (me_chi P h1 o Buffer (proj1 L1) (s_buffer P h S)) as (d & h2 & E2 & L2 & V2 & N2 & H2 & A2 & B2 & _); try discriminate. { exact I. }
    rewrite E2.
    destruct (me_change P h2 d Source plus (proj1 L2) N2) as (h3 & E3 & L3 & V3 & K3 & C3 & _). rewrite E3.
    destruct (me_green P h3 o d (proj1 L3) N2 A2) as (e & h4 & E4 & L4 & V4 & N4 & H4 & A4 & B4 & _). { eapply me_here_le; [|exact H2]; rewrite C3; lia. }
    rewrite E4.
    destruct (me_change P h4 e Field minus (proj1 L4) N4) as (h5 & E5 & L5 & V5 & K5 & C5 & _). rewrite E5.
    destruct (me_chi P h5 o e (proj1 L5) N4 A4 B4) as (r & h6 & E6 & L6 & V6 & N6 & H6 & A6 & B6 & _). { eapply me_here_le; [|exact H4]; rewrite C5; lia. }
    rewrite E6. exists r, h6. split; [reflexivity|].
    assert (T2 : leaves P h h2) by (eapply me_leaves_trans; eauto).
    assert (T4 : leaves P h h4) by (eapply me_leaves_trans; [exact T2|]; eapply me_leaves_trans; eauto).
    split; [eapply me_leaves_trans; [exact T4|]; eapply me_leaves_trans; eauto|].
    split; [|tauto].
    rewrite V6, V5, V4, V3, V2, V1. rewrite (proj1 (proj2 T4) Field PF), (proj1 (proj2 T2) Source PS). reflexivity.
  Qed.
End Steps.
