(** Vocabulary for the statements about the Fourier transform. *)
From Coq Require Import List Arith.
Require Import Verif.Cplx Verif.CSum Verif.Field.
Import ListNotations.

(** Two fields agree on every point of the grid. *)
Definition agree (s : list nat) (f g : sfield) : Prop := forall p, inside s p -> f p = g p.
(** Every axis has at least one point. *)
Definition nonempty (s : list nat) : Prop := Forall (fun n => 0 < n) s.
(** Index p - q on the periodic grid. *)
Fixpoint wrap_sub (s p q : list nat) : list nat :=
  match s, p, q with
  | n :: s', a :: p', b :: q' => ((a + (n - b)) mod n) :: wrap_sub s' p' q'
  | _, _, _ => []
  end.
(** The two vector fields agree on every point, for the first n components. *)
Definition vagree (n : nat) (s : list nat) (f g : vfield) : Prop := forall c p, c < n -> inside s p -> f c p = g c p.
