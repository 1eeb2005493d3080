(** Vocabulary for the statements about the history of a Solution. *)
From Coq Require Import Reals List Arith ZArith Bool.
Require Import Verif.Base Verif.Cplx Verif.CSum Verif.Field Verif.Fourier_Model Verif.Fourier_Spec Verif.Vec_Model Verif.Vec_Spec.
Require Import Verif.Solver_Model Verif.Solver_Spec Verif.Derived_Model Verif.Derived_Spec Verif.Run_Model.
Import ListNotations.
Local Open Scope R_scope.
Local Open Scope C_scope.

(** The l2-norm of an electric field on the grid of a Solution. *)
Definition magnitude (s : solution) (E : vfield) : R := sqrt (vnorm2 (vector_length (operators s)) (rshape (o_grid (operators s))) E).
(** The distance between the electric fields of two states of a Solution. *)
Definition change (s s' : solution) : R := magnitude s (fun c p => get_E s' c p - get_E s c p).
(** Reading twice gives the same array. *)
Definition same_field (s : solution) (E E' : vfield) : Prop := vagree (vector_length (operators s)) (rshape (o_grid (operators s))) E E'.

(** The problem that the user poses. *)
Record problem : Type := {
  p_grid : raster; p_vectorial : bool; p_magnetic : bool; p_k0 : R; p_beta : R;
  p_eps : tensor; p_xi : tensor; p_zeta : tensor; p_mu : tensor; p_source : vfield
}.
(** The state of the Solution is that for the problem, for some preconditioner. *)
Definition prepared (pb : problem) (alpha : C) (s : solution) : Prop :=
  wavenumber s = p_k0 pb /\
  operators s = prepare (scaled (p_k0 pb) (p_grid pb)) (p_vectorial pb) (p_magnetic pb) alpha (p_beta pb)
                        (p_eps pb) (p_xi pb) (p_zeta pb) (p_mu pb) (p_source pb).
Definition well_posed (pb : problem) : Prop := solvable (p_vectorial pb) (p_grid pb) (p_k0 pb) /\ p_beta pb <> 0%R.
Definition poses (pb : problem) (s : solution) : Prop := exists alpha, snd alpha <> 0%R /\ prepared pb alpha s.

Definition with_p_source (pb : problem) (src : vfield) : problem :=
  {| p_grid := p_grid pb; p_vectorial := p_vectorial pb; p_magnetic := p_magnetic pb; p_k0 := p_k0 pb; p_beta := p_beta pb;
     p_eps := p_eps pb; p_xi := p_xi pb; p_zeta := p_zeta pb; p_mu := p_mu pb; p_source := src |}.

(** Operations that do not assign anything but the iteration number. *)
Definition iterates_or_reads (a : op) : Prop :=
  match a with ONext _ | OReadResidue | OSetIteration _ => True | _ => False end.
(** Operations that leave the counter to the running iterator. *)
Definition keeps_count (a : op) : Prop :=
  match a with ONext fresh => fresh = false | OSetIteration _ => False | _ => True end.
Definition is_next (a : op) : bool := match a with ONext _ => true | _ => false end.
(** Operations that do not change the material. *)
Definition keeps_material (a : op) : Prop := match a with OSetEpsilon _ _ _ _ => False | _ => True end.
(** The last source that was assigned, directly or as a current density. *)
Definition assigned_source (u : si) (k0 : R) (S : vfield) (a : op) : vfield :=
  match a with
  | OSetSource src => src
  | OSetJ J => fun c p => J c p * (- Ci * RtoC (k0 * c_light u * mu_0 u))
  | _ => S
  end.
Definition last_source (u : si) (k0 : R) (l : list op) (S : vfield) : vfield := fold_left (assigned_source u k0) l S.
(** The change of E that the next update makes if it is accepted: the first update after assigning E always is. *)
Definition attempt (s : solution) : R := change s (fst (next true (set_E s (get_E s)))).
(** What the field is after the last assignment of E, if this is followed by no iteration. *)
Definition keeps_field (a : op) : Prop := match a with ONext _ | OSetE _ => False | _ => True end.

(** The definition of the residue: the norm of the last accepted update relative to that of the field. *)
Definition residue_is (s : solution) (r : ext) : Prop :=
  match previous_update_norm s, r with
  | Inf, Inf => magnitude s (get_E s) <> 0%R
  | Fin x, Fin y => (x = 0 /\ y = 0 \/ 0 < x /\ magnitude s (get_E s) <> 0 /\ y * magnitude s (get_E s) = x)%R
  | _, _ => False
  end.

(** A run of solve: [n] iterations, each followed by one call of the callback, which asks to continue in all but the last. *)
Definition solve_run {W} (cb : callback W) (s0 : solution) (w0 : W) (n : nat) (before after : nat -> solution) (world : nat -> W) : Prop :=
  before 0%nat = s0 /\ world 0%nat = w0 /\ (1 <= n)%nat /\
  forall i, (i < n)%nat ->
    next (Nat.eqb i 0) (before i) = (after i, None) /\
    cb (world i) (after i) = (world (i + 1)%nat, before (i + 1)%nat, Ok (negb (Nat.eqb (i + 1) n))).

(** The limits that callback=None stands for. *)
Definition limit_reached (maxiter : option Z) (rtol : R) (s : solution) : Prop :=
  (exists m, maxiter = Some m /\ (m <= iteration s)%Z) \/ exists x, snd (read_residue s) = Ok (Fin x) /\ (x <= rtol)%R.

(** A permittivity plus that of the bound, which is isotropic. *)
Definition tplus (a : tensor) (x : sfield) : tensor := tsub a (TScalar (fun p => - x p)).

(** The problem of a constructed Solution. *)
Definition nonmagnetic_problem (g : raster) (v : bool) (k0 beta : R) (eps mu : tensor) (S : vfield) : problem :=
  {| p_grid := g; p_vectorial := v; p_magnetic := false; p_k0 := k0; p_beta := beta; p_eps := eps; p_xi := tzero; p_zeta := tzero; p_mu := mu; p_source := S |}.
Definition with_bound (eps : tensor) (chi : option sfield) : tensor := match chi with None => eps | Some x => tplus eps x end.

(** The field and the source of a Solution are zero. *)
Definition silent (s : solution) : Prop := (forall c p, get_E s c p = 0) /\ (forall c p, get_source s c p = 0).

(** Assigning the permittivity gives a usable preconditioner. *)
Definition sane (a : op) : Prop := match a with OSetEpsilon _ _ alpha beta => snd alpha <> 0%R /\ beta <> 0%R | _ => True end.

(** The permittivity is not the only tensor that is given as matrices. *)
Definition same_kind (eps xi zeta mu : tensor) : Prop := match eps, xi, zeta, mu with TMatrix _, TScalar _, TScalar _, TScalar _ => False | _, _, _, _ => True end.
