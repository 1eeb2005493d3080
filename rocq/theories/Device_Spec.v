(** Specification vocabulary for the device on which a loaded back-end calculates. *)
From Coq Require Import String ZArith DecimalString.
From Verif Require Import Base Load_Model Load_Spec Device_Model.
Local Open Scope string_scope.

(** PyTorch is installed and its back-end can be constructed exactly when its constructor finds a device on [m]. *)
Definition describes (e : env) (m : machine) : Prop :=
  torch_importable e = true /\ torch_fft e = true /\ cuda_available e = available m /\ cuda_devices e = count m
  /\ (forall d, torch_init e d = true <-> exists p, start m d = Ok p).

(** The outcome of [load] with the list of dictionaries [l], at any time after that list was made. *)
Definition asked (e : env) (h1 : list op) (l : list cfg) (h2 : list op) : result backend :=
  snd (load e (run (h1 ++ ONewList l :: h2)%list) (Some (List.length (heap (run h1))))).

(** The back-end that was loaded calculates on [p]. *)
Definition calculates (m : machine) (r : result backend) (p : place) : Prop :=
  match r with
  | Ok (BTorch d) => start m d = Ok p
  | Ok BNumpy => p = OnCpu
  | Err _ => False
  end.

(** The request of a device for the torch back-end. *)
Definition request (d : option string) : list cfg := [{| c_type := Some "torch"; c_device := d |}].

(** The decimal digits of a number, and the names of a GPU: "cuda:n" and "gpu:n" in small letters or capitals. *)
Definition digits (n : nat) : string := NilZero.string_of_uint (N.to_uint (N.of_nat n)).
Definition names_gpu (d : string) (n : nat) : Prop :=
  lower d = "cuda:" ++ digits n \/ lower d = "gpu:" ++ digits n.

(** The default GPU can be used. *)
Definition good (m : machine) : bool := available m && (0 <? count m)%nat && negb (broken m (current m)).
