(** Model of the discrete Fourier transforms of the back-ends.
    Modelled: python/macromax/backend/numpy.py lines 92-95 (fftn and ifftn over the spatial axes, also used by
    lines 66-90), backend/__init__.py lines 306-319 (convolve).
    Simplified: exact complex numbers; the second (singleton) axis of vector fields is left out; the fast algorithm is
    replaced by the sum that numpy.fft documents; the reuse of work arrays is the subject of another model. *)
From Coq Require Import Reals List Arith.
Require Import Verif.Cplx Verif.CSum Verif.Field.
Import ListNotations.
Local Open Scope R_scope.
Local Open Scope C_scope.

(** exp(i x). *)
Definition cis (x : R) : C := (cos x, sin x).

(** 2 pi (j_0 k_0 / n_0 + j_1 k_1 / n_1 + ...). *)
Fixpoint phase (s j k : list nat) : R :=
  match s, j, k with
  | n :: s', a :: j', b :: k' => (2 * PI * (INR a * INR b) / INR n + phase s' j' k')%R
  | _, _, _ => 0%R
  end.

(** The number of points. *)
Definition points (s : list nat) : nat := fold_right Nat.mul 1%nat s.

(** backend/numpy.py 94: numpy.fft.fftn(arr, axes=ft_axes). *)
Definition ft (s : list nat) (f : sfield) : sfield := fun k => sum_over s (fun j => f j * cis (- phase s j k)).
(** backend/numpy.py 95: numpy.fft.ifftn(arr, axes=ft_axes). *)
Definition ift (s : list nat) (F : sfield) : sfield :=
  fun j => sum_over s (fun k => F k * cis (phase s j k)) / RtoC (INR (points s)).

(** The transforms act on every component of a vector field: backend/__init__.py ft_axes. *)
Definition vft (s : list nat) (f : vfield) : vfield := fun c => ft s (f c).
Definition vift (s : list nat) (f : vfield) : vfield := fun c => ift s (f c).

(** backend/__init__.py 302-316. *)
Definition convolve (s : list nat) (op : vfield -> vfield) (f : vfield) : vfield := vift s (op (vft s f)).
