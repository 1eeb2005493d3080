(** C143: the amplitude of the source only changes the amplitude of the field. *)
From Coq Require Import Reals List Arith ZArith Bool Lra.
Require Import Verif.Base Verif.Cplx Verif.CSum Verif.Field Verif.Fourier_Model Verif.Vec_Model Verif.Solver_Model Verif.Derived_Model Verif.Run_Model.
Require Import Verif.Bright_Spec Verif.Bright_Proofs.
Import ListNotations.
Local Open Scope R_scope.
Local Open Scope C_scope.

(** A Solution that is constructed with a source and an initial field that are a times as strong differs in nothing else. *)
Theorem brighter_constructed : forall a g vectorial magnetic k0 alpha beta epsilon xi zeta mu S chi initial,
  construct g vectorial magnetic k0 alpha beta epsilon xi zeta mu (times a S) chi (times a initial) =
  amplified a (construct g vectorial magnetic k0 alpha beta epsilon xi zeta mu S chi initial).
Proof. exact br_construct. Qed.
Print Assumptions brighter_constructed.
(** It remains so in every history of iterations and assignments, in which what is assigned is a times as strong as well. *)
Theorem brighter_history : forall a u l x, a <> RtoC 0 -> history u (map (amplified_op a) l) (amplified a x) = amplified a (history u l x).
Proof. intros a u l x Ha. exact (br_history a Ha u l x). Qed.
Print Assumptions brighter_history.
(** solve takes the same number of iterations, ends in the same way, and the callback sees the same iteration numbers and residues. *)
Theorem brighter_solve : forall (W : Type) a (cb : callback W) fuel fresh w x, a <> RtoC 0 -> blind a cb ->
  loop fuel cb fresh w (amplified a x) = option_map (amplified_outcome a) (loop fuel cb fresh w x).
Proof. intros W a cb fuel fresh w x Ha Hb. exact (br_loop a Ha cb Hb fuel fresh w x). Qed.
Print Assumptions brighter_solve.
Theorem brighter_limits : forall (W : Type) a maxiter rtol, a <> RtoC 0 -> blind a (limits (W := W) maxiter rtol).
Proof. intros W a maxiter rtol Ha. exact (br_limits a Ha maxiter rtol). Qed.
Print Assumptions brighter_limits.
(** What can be read from it: fields are multiplied by a, and the residue, the iteration number, and the permittivity are the same. *)
Theorem brighter_fields : forall a u x, a <> RtoC 0 ->
  get_E (amplified a x) = times a (get_E x) /\ get_source (amplified a x) = times a (get_source x) /\ get_j u (amplified a x) = times a (get_j u x) /\
  magnetic_field u (operators (amplified a x)) (wavenumber (amplified a x)) (field (amplified a x)) = times a (magnetic_field u (operators x) (wavenumber x) (field x)) /\
  magnetizing_field u (operators (amplified a x)) (wavenumber (amplified a x)) (field (amplified a x)) = times a (magnetizing_field u (operators x) (wavenumber x) (field x)) /\
  displacement_field u (operators (amplified a x)) (wavenumber (amplified a x)) (field (amplified a x)) = times a (displacement_field u (operators x) (wavenumber x) (field x)) /\
  snd (read_residue (amplified a x)) = snd (read_residue x) /\ iteration (amplified a x) = iteration x /\ get_epsilon (amplified a x) = get_epsilon x.
Proof.
  intros a u x Ha. refine (conj (br_get_E a x) (conj (br_get_source a x) (conj (br_get_j u a x) (conj (br_B u a _ _ _) (conj (br_H u a _ _ _) (conj (br_D u a _ _ _) (conj _ (conj eq_refl eq_refl)))))))).
  rewrite (br_read a Ha x). reflexivity.
Qed.
Print Assumptions brighter_fields.
(** Powers, energies, forces, and torques are multiplied by the squared magnitude of a. *)
Theorem brighter_powers : forall a u x, let q := (Cmod a * Cmod a)%R in
  let at_ {T} (f : si -> ops -> R -> vfield -> T) (y : solution) := f u (operators y) (wavenumber y) (field y) in
  (forall c p, at_ poynting (amplified a x) c p = (q * at_ poynting x c p)%R) /\
  (forall p, at_ energy_density (amplified a x) p = (q * at_ energy_density x p)%R) /\
  (forall i j p, at_ stress_tensor (amplified a x) i j p = (q * at_ stress_tensor x i j p)%R) /\
  at_ div_poynting (amplified a x) = rmap (fun f p => RtoC q * f p) (at_ div_poynting x) /\
  (forall j, at_ force_density (amplified a x) j = rmap (fun f p => q * f p)%R (at_ force_density x j)) /\
  at_ torque (amplified a x) = rmap (fun f c p => q * f c p)%R (at_ torque x).
Proof.
  intros a u x q at_. exact (conj (br_S u a _ _ _) (conj (br_energy u a _ _ _) (conj (br_stress u a _ _ _) (conj (br_divS u a _ _ _) (conj (br_force u a _ _ _) (br_torque u a _ _ _)))))).
Qed.
Print Assumptions brighter_powers.

(** A source of unit strength in a medium with a permittivity of 2 + i. *)
Definition lamp : solution := construct {| rshape := [3]%nat; rstep := [1%R] |} false false 1 (1, 3)%R 1 (TScalar (fun _ => (2, 1)%R)) (TScalar (fun _ => 0)) (TScalar (fun _ => 0)) (TScalar (fun _ => 1))
  (fun _ p => match p with [0%nat] => 1 | _ => 0 end) None (fun _ _ => 0).
(** Two i times that, i.e. also with another phase. *)
Example lamp_source : Ci * RtoC 2 <> RtoC 0 /\ source_distribution (operators (amplified (Ci * RtoC 2) lamp)) 0%nat [0%nat] = Ci * RtoC 2.
Proof.
  assert (H3 : RtoC 3 <> 0) by (intros Q; apply RtoC_inj in Q; lra). assert (Hi : Ci <> 0) by (intros Q; injection Q; lra).
  split.
  - intros Q. apply (f_equal snd) in Q. cbn in Q. lra.
  - unfold source_distribution, lamp, amplified, construct, prepare, precondition, update_operators, amplified_ops, times, im. cbn [operators o_source o_beta o_alpha snd fst].
    field. repeat split; try assumption; intros Q; apply RtoC_inj in Q; lra.
Qed.
Definition glow : solution := set_field lamp (fun _ _ => RtoC (/ 3)).
(** A callback that looks at the strength of the field is not covered. *)
Example not_blind : ~ blind (RtoC 2) (fun (w : unit) x => (w, x, Ok (if Rlt_dec (norm (operators x) (field x)) 1 then true else false))).
Proof.
  intros H. specialize (H tt glow). cbn beta iota zeta in H. apply (f_equal (fun r => match snd r with Ok b => b | Err _ => true end)) in H. cbn [snd] in H.
  change (operators (amplified (RtoC 2) glow)) with (amplified_ops (RtoC 2) (operators glow)) in H. change (field (amplified (RtoC 2) glow)) with (times (RtoC 2) (field glow)) in H.
  rewrite br_norm in H.
  assert (E : norm (operators glow) (field glow) = sqrt (/ 3)).
  { unfold norm. f_equal. cbn. rewrite ?Cmod_R, ?(Rabs_pos_eq (/ 3)) by lra. lra. }
  rewrite E, Cmod_R, (Rabs_pos_eq 2) in H by lra.
  assert (sqrt (/ 3) * sqrt (/ 3) = / 3)%R as Hq by (apply sqrt_sqrt; lra). pose proof (sqrt_pos (/ 3)).
  destruct (Rlt_dec (2 * sqrt (/ 3)) 1) as [L|L], (Rlt_dec (sqrt (/ 3)) 1) as [L'|L']; try discriminate; nra.
Qed.
