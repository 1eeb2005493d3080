(** Model of backend selection: python/macromax/backend/__init__.py lines 883-1012
    (module functions [config] and [load] and the module global [__config_list]). *)
From Coq Require Import String Ascii.
From Verif Require Import Base.
Local Open Scope string_scope.

(** A configuration dictionary; only the keys 'type' and 'device' are ever read (lines 968, 970). *)
Record cfg : Type := { c_type : option string; c_device : option string }.

(** An element of a configuration list: a dictionary, or (as in [config([..])]) a list of dictionaries. *)
Inductive entry : Type :=
| EDict : cfg -> entry
| EList : list cfg -> entry.

(** What [json.load] of backend_config.json gives (lines 948-955). *)
Inductive config_file : Type :=
| NoFile                      (* FileNotFoundError: line 953 *)
| InvalidJson                 (* JSONDecodeError: line 955 *)
| JsonList : list entry -> config_file
| JsonDict : cfg -> config_file.

(** The parts of the machine that [load] probes. *)
Record env : Type := {
  torch_importable : bool;                  (* import torch (line 974) and BackEndTorch (line 995) *)
  cuda_available : bool;                    (* torch.cuda.is_available(): line 975 *)
  cuda_devices : nat;                       (* torch.cuda.device_count(): line 975 *)
  torch_fft : bool;                         (* import torch.fft: line 988 *)
  torch_init : option string -> bool;       (* BackEndTorch(.., device) does not raise: line 998 *)
  numpy_init : option pyexc;                (* what BackEndNumpy(..) raises, if anything: line 1005 *)
  json_file : config_file
}.

Inductive backend : Type :=
| BTorch : option string -> backend
| BNumpy : backend.

(** [str.lower] for ASCII strings. *)
Definition lower_ascii (c : ascii) : ascii :=
  let n := nat_of_ascii c in
  if (65 <=? n)%nat && (n <=? 90)%nat then ascii_of_nat (n + 32) else c.
Fixpoint lower (s : string) : string :=
  match s with EmptyString => EmptyString | String c s => String (lower_ascii c) (lower s) end.

Definition startswith (p s : string) : bool := prefix p s.

(** [device[3:]] *)
Definition drop3 (s : string) : string := substring 3 (String.length s - 3) s.

(** One pass of the loop body for a dictionary, lines 968-1011: [Ok (Some b)] is [return backend],
    [Ok None] is a caught ImportError, [Err e] any other exception, which leaves [load]. *)
Definition try_cfg (e : env) (c : cfg) : result (option backend) :=
  let ty := lower (match c_type c with Some t => t | None => "unknown" end) in
  let device := option_map lower (c_device c) in
  if ty =? "torch" then
    if torch_importable e then
      let gpu_available := cuda_available e && (0 <? cuda_devices e)%nat in
      let device := match device with
                    | Some d => Some (if startswith "gpu" d then "cuda" ++ drop3 d else d)
                    | None => None
                    end in
      let want_cuda := match device with Some d => startswith "cuda" d | None => false end in
      if want_cuda && negb gpu_available then Ok None
      else if negb (torch_fft e) then Ok None
      else if torch_init e device then Ok (Some (BTorch device))
      else Ok None
    else Ok None
  else if ty =? "numpy" then
    match numpy_init e with
    | None => Ok (Some BNumpy)
    | Some ImportError => Ok None
    | Some x => Err x
    end
  else Ok None.

(** The loop, lines 967-1012.  [c.get] on a list raises AttributeError outside the [try] (line 968). *)
Fixpoint try_all (e : env) (l : list entry) : result backend :=
  match l with
  | [] => Err TypeError
  | EList _ :: _ => Err AttributeError
  | EDict c :: l =>
      match try_cfg e c with
      | Ok (Some b) => Ok b
      | Ok None => try_all e l
      | Err x => Err x
      end
  end.

(** Lines 961-965. *)
Definition fallbacks : list entry :=
  [EDict {| c_type := Some "torch"; c_device := Some "cuda" |};
   EDict {| c_type := Some "torch"; c_device := Some "cpu" |};
   EDict {| c_type := Some "numpy"; c_device := None |}].

(** Python lists are mutable objects: [heap] maps an address to the present contents of a list;
    [global] is the module global [__config_list] (None initially). *)
Record state : Type := { heap : list (list entry); global : option nat }.
Definition init : state := {| heap := []; global := None |}.

Fixpoint upd {A} (l : list A) (n : nat) (x : A) : list A :=
  match l, n with
  | [], _ => []
  | _ :: l, O => x :: l
  | y :: l, S n => y :: upd l n x
  end.

(** The caller makes a list object. *)
Definition new_list (s : state) (l : list entry) : state * nat :=
  ({| heap := heap s ++ [l]; global := global s |}, List.length (heap s)).

(** [config( *args, **kwargs)], lines 883-919.  [args] are dictionaries or lists of dictionaries, for which the
    test on line 917 is never true ('type' in a list of dictionaries is False). *)
Definition config (s : state) (args : list entry) (kwargs : cfg) : state :=
  let '(s, loc) := new_list s (args ++ [EDict kwargs])%list in
  {| heap := heap s; global := Some loc |}.

(** [load(nb_pol_dims, grid, dtype, config_list)], lines 922-1012.  The [isinstance(config, Dict)] on line 951 tests
    the function [config], so it is never true and a dictionary is not wrapped; then [dict += list] raises
    TypeError on line 961. [+=] on a list extends the list object in place. *)
Definition load (e : env) (s : state) (arg : option nat) : state * result backend :=
  let s_loc :=
    match arg with
    | Some loc => Ok (s, loc)
    | None =>
        match global s with
        | Some loc => Ok (s, loc)
        | None =>
            match json_file e with
            | NoFile | InvalidJson => Ok (new_list s [])
            | JsonList l => Ok (new_list s l)
            | JsonDict _ => Err TypeError
            end
        end
    end in
  match s_loc with
  | Err x => (s, Err x)
  | Ok (s, loc) =>
      let l := (nth loc (heap s) [] ++ fallbacks)%list in
      ({| heap := upd (heap s) loc l; global := global s |}, try_all e l)
  end.
