(** Model of the loops of python/macromax/backend/__init__.py lines 496-529, 564-569 and 606-649, component by component, in
    arrays that hold arbitrary values before they are written to: new ones (allocate_array, backend/numpy.py lines 98-110 and
    backend/torch.py lines 115-137) and the work arrays that are kept from one call to the next.
    Simplified: exact numbers; the singleton second axis of vector fields is left out. *)
From Coq Require Import Reals List Arith ZArith Bool.
Require Import Verif.Base Verif.Cplx Verif.CSum Verif.Field Verif.Fourier_Model Verif.Vec_Model.
Import ListNotations.
Local Open Scope R_scope.
Local Open Scope C_scope.

(** arr[i] = x *)
Definition fill (a : vfield) (i : nat) (x : sfield) : vfield := fun c p => if Nat.eqb c i then x p else a c p.

(** The other two components of a vector of [n], lines 501 and 524. *)
Definition other0 (n i : nat) : nat := ((i + n - 1) mod n)%nat.
Definition other1 (n i : nat) : nat := ((i + 1) mod n)%nat.

(** The body of the loop of curl_ft, lines 500-507. *)
Definition curl_body (g : raster) (vl nf : nat) (F : vfield) (a : vfield) (i : nat) : vfield :=
  let o0 := other0 vl i in
  let o1 := other1 vl i in
  let a1 := if (Nat.ltb o0 nf && Nat.ltb o1 (rndim g))%bool then fill a i (fun p => RtoC (kvec g o1 p) * F o0 p)
            else fill a i (fun _ => 0) in
  if (Nat.ltb o1 nf && Nat.ltb o0 (rndim g))%bool then fill a1 i (fun p => a1 i p - RtoC (kvec g o0 p) * F o1 p) else a1.
(** curl_ft, lines 496-509, of a field of [nf] components: [junk] is what is in the memory that is allocated. *)
Definition curl_run (g : raster) (vl nf : nat) (junk F : vfield) : vfield :=
  let a := fold_left (curl_body g vl nf F) (seq 0 vl) junk in fun c p => Ci * a c p.

(** cross, lines 521-529, of fields of [na] and [nb] components. *)
Definition cross_body (na nb : nat) (A B : vfield) (a : vfield) (i : nat) : vfield :=
  let o0 := other0 na i in
  let o1 := other1 na i in
  let a1 := if (Nat.ltb o1 na && Nat.ltb o0 nb)%bool then fill a i (fun p => A o1 p * B o0 p) else a in
  if (Nat.ltb o0 na && Nat.ltb o1 nb)%bool then fill a1 i (fun p => a1 i p - A o0 p * B o1 p) else a1.
Definition cross_run (na nb : nat) (junk A B : vfield) : vfield := fold_left (cross_body na nb A B) (seq 0 na) junk.

(** div_ft, lines 564-569: the array is filled with zeros first. *)
Definition div_run (g : raster) (nf : nat) (junk : sfield) (F : vfield) : result sfield :=
  if Nat.ltb nf (rndim g) then Err IndexError
  else
    let zeros : sfield := (fun (_ : sfield) _ => RtoC 0) junk in
    Ok (fold_left (fun (d : sfield) i p => d p + Ci * RtoC (kvec g i p) * F i p) (seq 0 (rndim g)) zeros).

(** Lines 643-645.  With PyTorch the DC components of line 625 are views: when the argument is the array of the result, they
    are read only [late], after the component was written to. *)
Definition project_body (g : raster) (late : bool) (F : vfield) (w : sfield) (r : vfield) (i : nat) : vfield :=
  let r1 := fill r i (fun p => RtoC (kvec g i p) * w p) in
  let dc := if late then r1 i else F i in
  fill r1 i (fun p => if is_origin p then dc p else r1 i p).
(** longitudinal_projection_ft, lines 606-649, of a field of [nf] components, with the work array of line 629 and the array of
    the result, array_ft_input, of [vl] components. The result, and what is left in the work array. *)
Definition project_run (g : raster) (vl nf : nat) (late : bool) (F : vfield) (w : sfield) (r : vfield) : result (vfield * sfield) :=
  let nd := rndim g in
  if Nat.ltb nf nd then Err IndexError
  else if Nat.ltb vl (Nat.max nd nf) then Err IndexError
  else
    let w1 : sfield := (fun (_ : sfield) p => F 0%nat p) w in
    let w2 : sfield := fun p => w1 p * RtoC (kvec g 0 p) in
    let w3 := fold_left (fun (w : sfield) i p => w p + RtoC (kvec g i p) * F i p) (seq 1 (nd - 1)) w2 in
    let w4 : sfield := fun p => if is_origin p then w3 p else w3 p / RtoC (k2 g p) in
    let r1 := fold_left (project_body g late F w4) (seq 0 nd) r in
    let r2 := fold_left (fun r i => fill r i (fun _ => 0)) (seq nd (Nat.max nd nf - nd)) r1 in
    Ok (r2, w4).

(** ** The shape of the work array of lines 628-629, for one-column fields with as many axes as the grid, with numpy. *)
(** numpy can copy an array of shape [x] to one of shape [y] of as many axes. *)
Fixpoint copies (x y : list nat) : bool :=
  match x, y with
  | [], [] => true
  | a :: x, b :: y => (Nat.eqb a 1 || Nat.eqb a b)%bool && copies x y
  | _, _ => false
  end.
(** The shape of a product. *)
Fixpoint combined (x y : list nat) : result (list nat) :=
  match x, y with
  | [], [] => Ok []
  | a :: x, b :: y =>
      if (Nat.eqb a 1 || Nat.eqb b 1 || Nat.eqb a b)%bool
      then do r <- combined x y; Ok ((if Nat.eqb a 1 then b else a) :: r)
      else Err ValueError
  | _, _ => Err ValueError
  end.
(** The shape of self.k[axis]. *)
Definition k_shape (grid : list nat) (axis : nat) : list nat :=
  map (fun i => if Nat.eqb i axis then nth i grid 1%nat else 1%nat) (seq 0 (length grid)).
Definition product (s : list nat) : nat := fold_right Nat.mul 1%nat s.
(** Check that a product with self.k[axis] can be stored in an array of shape [target]. *)
Definition k_stored (grid : list nat) (x target : list nat) (axis : nat) : bool :=
  match combined (k_shape grid axis) x with Ok s => copies s target | Err _ => false end.
(** A call with a field of shape [field]: the shape of the work array after it, and whether it succeeds (lines 628-645). *)
Definition project_call (grid : list nat) (work : option (list nat)) (field : list nat) : option (list nat) * result unit :=
  let w := match work with Some s => s | None => field end in
  (Some w,
   if (copies field w                                                         (* line 632 *)
       && copies (k_shape grid 0) w                                           (* line 633 *)
       && forallb (k_stored grid field w) (seq 1 (length grid - 1))           (* line 636 *)
       && (Nat.eqb (product w) (product grid) || Nat.eqb (product grid) 2)    (* line 639 *)
       && forallb (k_stored grid w grid) (seq 0 (length grid)))%bool          (* line 644 *)
   then Ok tt else Err ValueError).
(** A history of calls: their outcomes. *)
Fixpoint project_calls (grid : list nat) (work : option (list nat)) (fields : list (list nat)) : list (result unit) :=
  match fields with
  | [] => []
  | f :: fields => let '(w, r) := project_call grid work f in r :: project_calls grid w fields
  end.
