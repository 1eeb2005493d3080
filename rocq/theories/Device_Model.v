(** Model of the choice of the device by the torch back-end: python/macromax/backend/torch.py lines 25-58, as
    called by [load], python/macromax/backend/__init__.py line 998 (Load_Model). *)
From Coq Require Import String Ascii ZArith DecimalString.
From Verif Require Import Base Load_Model.
Local Open Scope string_scope.

(** What torch finds on the machine: torch.cuda.is_available(), torch.cuda.device_count(),
    torch.cuda.current_device(), and the GPUs on which an allocation or a subtraction raises an error, as with
    a driver that does not match. *)
Record machine : Type := {
  available : bool;
  count : nat;
  current : nat;
  broken : nat -> bool
}.

(** Where the arrays are: in the memory of the CPU or in that of the GPU with a given number. *)
Inductive place : Type := OnCpu | OnGpu (n : nat).

(** [device[5:]], line 44. *)
Definition drop5 (s : string) : string := substring 5 (String.length s - 5) s.

(** [int(s)], line 44: decimal digits, possibly after a minus sign.  Simplified: Python also accepts a plus sign,
    surrounding white space and underscores. *)
Definition int_of (s : string) : option Z := option_map Z.of_int (NilZero.int_of_string s).

(** [torch.device(s)], line 49.  Simplified: kinds of devices other than CPU and CUDA are not modelled, and
    leading zeros of the number are accepted. *)
Definition torch_device (m : machine) (s : string) : option place :=
  if s =? "cpu" then Some OnCpu
  else if s =? "cpu:0" then Some OnCpu
  else if s =? "cuda" then Some (OnGpu (current m))
  else if prefix "cuda:" s then
    option_map (fun u => OnGpu (Z.to_nat (Z.of_uint u))) (NilZero.uint_of_string (drop5 s))
  else None.

(** [BackEndTorch.__init__], lines 41-58: the place where it calculates, or the exception.  Simplified:
    [device.strip()] on line 44 is left out: names with surrounding white space are outside of
    the model.  A RuntimeError is an [OtherException]. *)
Definition start (m : machine) (device : option string) : result place :=
  let device :=                                                                     (* lines 41-42 *)
    match device with
    | None => if available m then "cuda" else "cpu"
    | Some d => if d =? "cuda" then (if available m then "cuda" else "cpu") else d
    end in
  let device :=                                                                     (* lines 43-47 *)
    if (4 <? String.length device)%nat then
      match int_of (drop5 (lower device)) with
      | None => Err ValueError
      | Some ordinal => Ok (if (Z.of_nat (count m) - 1 <? ordinal)%Z then "cuda" else device)
      end
    else Ok device in
  match device with
  | Err x => Err x
  | Ok device =>
      match torch_device m device with                                              (* line 49 *)
      | None => Err OtherException
      | Some p =>
          if device =? "cuda" then                                                  (* lines 51-58 *)
            if available m && (0 <? count m)%nat && negb (broken m (current m)) then Ok p else Err OtherException
          else Ok p
      end
  end.
