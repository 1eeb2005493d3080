(** The unit tests of python/tests/test_hsv.py and test_utils_display.py, replayed on the model with rationals. *)
From Coq Require Import ZArith QArith Qcanon List Bool.
From Verif Require Import Base Num Display_Model.
Import ListNotations.
Definition q (n : Z) (d : positive) : Qc := Q2Qc (n # d).
Fixpoint eql (a b : list Qc) : bool :=
  match a, b with [], [] => true | x :: a, y :: b => Qeq_bool x y && eql a b | _, _ => false end.
Definition rgb (h s v : Qc) : list Qc := hsv2rgb_image QN h s v None.
Definition hsv (r g b : Qc) : list Qc := rgb2hsv QN r g b None.
Definition z (n : Z) := q n 1.
(** test_hsv.py, lines 10-25. *)
Example test_hsv2rgb : forallb (fun t : (Qc * Qc * Qc) * list Qc => let '((h, s, v), e) := t in eql (rgb h s v) e) [
  ((z 0, z 0, z 0), [z 0; z 0; z 0]); ((z 0, z 1, z 0), [z 0; z 0; z 0]); ((z 1, z 0, z 0), [z 0; z 0; z 0]);
  ((z 0, z 0, z 1), [z 1; z 1; z 1]); ((z 0, z 0, q 1 2), [q 1 2; q 1 2; q 1 2]); ((z 0, z 0, q 3 2), [q 3 2; q 3 2; q 3 2]);
  ((z 0, z 1, z 1), [z 1; z 0; z 0]); ((z 0, q 1 2, z 1), [z 1; q 1 2; q 1 2]); ((z 1, z 1, z 1), [z 1; z 0; z 0]);
  ((q 1 6, z 1, z 1), [z 1; z 1; z 0]); ((q 2 6, z 1, z 1), [z 0; z 1; z 0]); ((q 3 6, z 1, z 1), [z 0; z 1; z 1]);
  ((q 4 6, z 1, z 1), [z 0; z 0; z 1]); ((q 5 6, z 1, z 1), [z 1; z 0; z 1])] = true.
Proof. vm_compute. reflexivity. Qed.
(** test_hsv.py, lines 84-97. *)
Example test_rgb2hsv : forallb (fun t : (Qc * Qc * Qc) * list Qc => let '((r, g, b), e) := t in eql (hsv r g b) e) [
  ((z 0, z 0, z 0), [z 0; z 0; z 0]); ((z 1, z 1, z 1), [z 0; z 0; z 1]); ((q 1 2, q 1 2, q 1 2), [z 0; z 0; q 1 2]);
  ((q 3 2, q 3 2, q 3 2), [z 0; z 0; q 3 2]); ((z 1, z 0, z 0), [z 0; z 1; z 1]); ((z 1, q 1 2, q 1 2), [z 0; q 1 2; z 1]);
  ((z 1, z 1, z 0), [q 1 6; z 1; z 1]); ((z 0, z 1, z 0), [q 2 6; z 1; z 1]); ((z 0, z 1, z 1), [q 3 6; z 1; z 1]);
  ((z 0, z 0, z 1), [q 4 6; z 1; z 1]); ((z 1, z 0, z 1), [q 5 6; z 1; z 1])] = true.
Proof. vm_compute. reflexivity. Qed.
Definition zrange (first : Z) (n : nat) : list Qc := map (fun j => z (first + Z.of_nat j)) (seq 0 n).
Definition extent_is (r : result (list Qc)) (e : list Qc) : bool := match r with Ok l => eql l e | Err _ => false end.
(** test_utils_display.py, lines 16-23. *)
Example test_ranges2extent :
  extent_is (grid2extent_ranges QN [zrange 0 5; zrange 0 10] false) [q (-1) 2; q 19 2; q 9 2; q (-1) 2] = true /\
  extent_is (grid2extent_ranges QN [zrange (-2) 5; zrange (-3) 10] false) [q (-7) 2; q 13 2; q 5 2; q (-5) 2] = true /\
  extent_is (grid2extent_ranges QN [zrange 0 5; map (fun x => Qcmult x (q 1 5)) (zrange 0 10)] false) [q (-1) 10; q 19 10; q 9 2; q (-1) 2] = true /\
  extent_is (grid2extent_ranges QN [zrange 0 5; map (fun x => Qcmult x (q 1 5)) (zrange (-5) 15)] false) [q (-11) 10; q 19 10; q 9 2; q (-1) 2] = true.
Proof. vm_compute. auto. Qed.
(** Not a sextant border: hue 1/24 comes back as 1/8. *)
Example hue_reflected : eql (rgb (q 1 24) (z 1) (z 1)) [z 1; q 1 4; z 0] = true /\ eql (hsv (z 1) (q 1 4) (z 0)) [q 1 8; z 1; z 1] = true.
Proof. vm_compute. auto. Qed.
