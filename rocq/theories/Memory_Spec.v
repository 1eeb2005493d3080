(** What the arrays that a Solution returns should be. *)
From Coq Require Import Reals List Arith Bool.
Require Import Verif.Base Verif.Cplx Verif.Field Verif.Vec_Model Verif.Solver_Model Verif.Derived_Model Verif.Run_Model Verif.Memory_Model.
Import ListNotations.
Local Open Scope R_scope.

(** The value of a property of a Solution. *)
Definition value (u : si) (g : getter) (s : solution) : result vfield :=
  let o := operators s in
  let k := wavenumber s in
  let F := field s in
  match g with
  | RE => Ok (get_E s)
  | RSource => Ok (get_source s)
  | RJ => Ok (get_j u s)
  | RB => Ok (magnetic_field u o k F)
  | RH => Ok (magnetizing_field u o k F)
  | RD => Ok (displacement_field u o k F)
  | RS => Ok (fun c p => RtoC (poynting u o k F c p))
  | RDivS => rmap (fun r _ => r) (div_poynting u o k F)
  | REnergy => Ok (fun _ p => RtoC (energy_density u o k F p))
  | RStress => Ok (fun ij p => RtoC (stress_tensor u o k F (ij mod 3) (ij / 3) p))
  | RForce => rmap (fun _ j p => match force_density u o k F j with Ok f => RtoC (f p) | Err _ => RtoC 0 end) (force_density u o k F 0)
  | RTorque => rmap (fun t c p => RtoC (t c p)) (torque u o k F)
  end.
(** The operations of a history on the Solution itself. *)
Definition operations (l : list deed) : list op := flat_map (fun d => match d with Do a => [a] | _ => [] end) l.
(** The present content of array number k of those obtained. *)
Definition array (x : session) (k : nat) : option vfield := option_map (content (mem (now x))) (nth_error (got x) k).
(** How many arrays have been obtained. *)
Definition obtained (x : session) : nat := length (got x).
Definition writes_to (k : nat) (d : deed) : Prop := match d with Write j _ => j = k | _ => False end.
(** Whether a property returns an array that nothing else uses: all but D do, and all but divS of a scalar problem, with pyfftw. *)
Definition own_array (lib : library) (s : solution) (g : getter) : bool :=
  negb (has_pyfftw lib && negb (forallb (Nat.eqb 1) (rshape (o_grid (operators s))))
        && match g with RD => true | RDivS => negb (o_vectorial (operators s)) | _ => false end).
