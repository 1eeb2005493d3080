(** Model of Grid.__add__ and Grid.__mul__ (python/macromax/utils/ft/grid.py) for operands of any size; the model in Grid_Model is for those
    with one element or one per axis. *)
From Verif Require Import Base Num Grid_Model.

Section Operand.
  Variable N : num.
  Local Notation grid := (grid N).
  (** numpy broadcasting of two vectors, for the sum on line 447 and the products on lines 466 and 467. *)
  Definition broadcast2 (op : N -> N -> N) (a b : list N) : result (list N) :=
    match a, b with
    | _, [y] => Ok (map (fun x => op x y) a)
    | [x], _ => Ok (map (op x) b)
    | _, _ => if Nat.eqb (length a) (length b) then Ok (map (fun xy => op (fst xy) (snd xy)) (combine a b)) else Err ValueError
    end.
  (** np.asarray(term), lines 447 and 465: a number broadcasts as a vector of one element. *)
  Definition elements (o : operand N) : list N := match o with OScalar _ _ x => [x] | OArray _ _ l | OSequence _ _ l => l end.
  Definition kind (o : operand N) : dt := match o with OScalar _ d _ | OArray _ d _ | OSequence _ d _ => d end.
  (** Lines 448-450 and 468-472: the first element, if this grid is not multi-dimensional. *)
  Definition only_first (g : grid) (d : dt) (l : list N) : result (arg N) :=
    if multidimensional N g then Ok (AVector N d l) else match l with [] => Err IndexError | x :: _ => Ok (AScalar N d x) end.
  (** The vectors self.center and self.step of a grid (lines 251-259; a short step vector has one element, see Grid_Model). *)
  Definition centers (g : grid) : list N := map (at_ N (center N g)) (axes (ndim N g)).
  Definition steps (g : grid) : list N := map (at_ N (step N g)) (axes (if short_step N g then 1%nat else ndim N g)).
  (** [__add__], lines 444-451. *)
  Definition add_any (g : grid) (o : operand N) : result grid :=
    do c <- broadcast2 (nadd N) (centers g) (elements o);
    do c <- only_first g (join (tag N (center N g)) (kind o)) c;
    construct N (with_center N (dict N g) c).
  (** [__mul__], lines 453-473. *)
  Definition mul_any (g : grid) (o : operand N) : result grid :=
    do s <- broadcast2 (nmul N) (steps g) (elements o);
    do c <- broadcast2 (nmul N) (centers g) (elements o);
    do s <- only_first g (join (tag N (step N g)) (kind o)) s;
    do c <- only_first g (join (tag N (center N g)) (kind o)) c;
    construct N (with_center N (with_step N (dict N g) s) c).
End Operand.
