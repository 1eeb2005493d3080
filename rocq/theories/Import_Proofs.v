From Coq Require Import String List Bool Arith.
Require Import Verif.Base Verif.Import_Model Verif.Import_Spec.
Import ListNotations.
Local Open Scope string_scope.

Lemma lookup_put_same k v e : lookup k (put k v e) = Some v.
Proof. induction e as [|(k', v') e IH]; cbn; [rewrite String.eqb_refl; reflexivity|]. destruct (k' =? k) eqn:E; cbn; [rewrite String.eqb_refl; reflexivity|rewrite E; exact IH]. Qed.
Lemma lookup_put_other k k' v e : k' <> k -> lookup k (put k' v e) = lookup k e.
Proof.
  intros H. apply String.eqb_neq in H. induction e as [|(k'', v'') e IH]; cbn; [rewrite H; reflexivity|]. destruct (k'' =? k') eqn:E; cbn.
  - apply String.eqb_eq in E. subst k''. rewrite !H. reflexivity.
  - destruct (k'' =? k); [reflexivity|exact IH].
Qed.
Lemma fold_same l v : forall e, same_but l e (fold_left (fun e k => put k v e) l e).
Proof.
  induction l as [|k l IH]; intros e x Hx; cbn; [reflexivity|]. rewrite (IH _ x) by (intros H; apply Hx; right; exact H).
  apply lookup_put_other. intros ->. apply Hx. left. reflexivity.
Qed.
Lemma fold_kept l v k : forall e, lookup k e = Some v -> lookup k (fold_left (fun e k => put k v e) l e) = Some v.
Proof.
  induction l as [|k' l IH]; intros e H; cbn; [exact H|]. apply IH. destruct (string_dec k' k) as [->|N]; [apply lookup_put_same|rewrite lookup_put_other by exact N; exact H].
Qed.
Lemma fold_set l v k : In k l -> forall e, lookup k (fold_left (fun e k => put k v e) l e) = Some v.
Proof.
  induction l as [|k' l IH]; intros H e; [contradiction|]. cbn. destruct H as [->|H]; [|apply IH; exact H]. apply fold_kept, lookup_put_same.
Qed.
Lemma threads_set m e e' : set_threads m e = Ok e' ->
  same_but thread_settings e e' /\ forall n k, cpu_count m = Some n -> In k thread_settings -> lookup k e' = Some (shown m n).
Proof.
  unfold set_threads. destruct (cpu_count m) as [n|].
  - intros H. assert (e' = fold_left (fun e k => put k (shown m n) e) thread_settings e) as -> by (unfold thread_settings; destruct (mkl m); congruence).
    split; [apply fold_same|]. intros n' k E Hk. injection E as ->. apply fold_set. exact Hk.
  - intros H. injection H as ->. split; [intros k _; reflexivity|discriminate].
Qed.
Lemma threads_clean m e : mkl m <> RaisesOther -> exists e', set_threads m e = Ok e'.
Proof. intros H. unfold set_threads. destruct (cpu_count m); [|eexists; reflexivity]. destruct (mkl m); try contradiction; eexists; reflexivity. Qed.
Lemma import_clean m e : clean m -> exists p e', import_ft m e = Ok (p, e') /\ preferred m p /\ same_but thread_settings e e' /\
  exists b, back_end_numpy m e = Ok (b, e') /\ (b = true <-> pyfftw m = Works).
Proof.
  intros (H1 & H2 & H3 & H4 & H5). destruct (threads_clean m e) as (e' & E); [destruct H1 as [H1|H1]; rewrite H1; discriminate|].
  unfold import_ft, back_end_numpy, choose_transforms. rewrite E. cbn [bind]. pose proof (proj1 (threads_set m e e' E)) as Hs.
  destruct H2 as [H2|H2], H3 as [H3|H3]; rewrite ?H2, ?H3, ?H4, ?H5; cbn; rewrite ?H2, ?H3.
  - exists MklFft, e'. refine (conj eq_refl (conj H2 (conj Hs _))). exists true. split; [reflexivity|tauto].
  - exists MklFft, e'. refine (conj eq_refl (conj H2 (conj Hs _))). exists false. split; [reflexivity|split; discriminate].
  - exists PyFftw, e'. refine (conj eq_refl (conj (conj H2 H3) (conj Hs _))). exists true. split; [reflexivity|tauto].
  - exists NumpyFft, e'. refine (conj eq_refl (conj (conj H2 H3) (conj Hs _))). exists false. split; [reflexivity|split; discriminate].
Qed.
Lemma import_broken m e : mkl m = ModuleNotFound -> mkl_fft m = RaisesImportError -> import_ft m e = Err ImportError.
Proof. intros H1 H2. unfold import_ft, choose_transforms. destruct (threads_clean m e) as (e' & E); [rewrite H1; discriminate|]. rewrite E, H2. reflexivity. Qed.
Lemma import_broken_fftw m e : mkl m = ModuleNotFound -> mkl_fft m = ModuleNotFound -> pyfftw m = RaisesImportError ->
  import_ft m e = Err ImportError /\ back_end_numpy m e = Err ImportError.
Proof. intros H1 H2 H3. unfold import_ft, choose_transforms, back_end_numpy. destruct (threads_clean m e) as (e' & E); [rewrite H1; discriminate|]. rewrite E, H2, H3. split; reflexivity. Qed.
Lemma type_error_differs m e : mkl m = ModuleNotFound -> mkl_fft m = ModuleNotFound -> pyfftw m = RaisesTypeError ->
  (exists e', import_ft m e = Ok (NumpyFft, e')) /\ back_end_numpy m e = Err TypeError.
Proof. intros H1 H2 H3. unfold import_ft, choose_transforms, back_end_numpy. destruct (threads_clean m e) as (e' & E); [rewrite H1; discriminate|]. rewrite E, H2, H3. split; [eexists|]; reflexivity. Qed.
Lemma import_overrides m e n : clean m -> cpu_count m = Some n -> exists p e', import_ft m e = Ok (p, e') /\ forall k, In k thread_settings -> lookup k e' = Some (shown m n).
Proof.
  intros Hc Hn. destruct (import_clean m e Hc) as (p & e' & E & _). exists p, e'. split; [exact E|]. intros k Hk.
  unfold import_ft in E. destruct (set_threads m e) as [e1|] eqn:E1; [|discriminate]. cbn [bind] in E. destruct (choose_transforms m); [|discriminate]. cbn [bind] in E. injection E as _ <-.
  exact (proj2 (threads_set m e e1 E1) n k Hn Hk).
Qed.
