(** Specification vocabulary for backend selection (independent of the code of [load]). *)
From Coq Require Import String.
From Verif Require Import Base Load_Model.
Local Open Scope string_scope.

(** The device name asked for: lower case, with the alias "gpu..." for "cuda...". *)
Definition requested_device (c : cfg) : option string :=
  match c_device c with
  | None => None
  | Some d => Some (if prefix "gpu" (lower d) then "cuda" ++ drop3 (lower d) else lower d)
  end.

Definition needs_cuda (d : option string) : Prop := exists rest, d = Some ("cuda" ++ rest).

(** [usable e c b]: on machine [e], configuration [c] can be loaded and gives backend [b]. *)
Inductive usable (e : env) (c : cfg) : backend -> Prop :=
| usable_torch t : c_type c = Some t -> lower t = "torch" ->
    torch_importable e = true -> torch_fft e = true ->
    (needs_cuda (requested_device c) -> cuda_available e = true /\ 0 < cuda_devices e) ->
    torch_init e (requested_device c) = true ->
    usable e c (BTorch (requested_device c))
| usable_numpy t : c_type c = Some t -> lower t = "numpy" -> numpy_init e = None ->
    usable e c BNumpy.

(** [b] is what the first usable configuration of the list gives. *)
Definition first_usable (e : env) (l : list cfg) (b : backend) : Prop :=
  exists pre c post, l = (pre ++ c :: post)%list /\
    (forall c' b', In c' pre -> ~ usable e c' b') /\ usable e c b.

(** The documented order of the automatic choices. *)
Definition default_cfgs : list cfg :=
  [{| c_type := Some "torch"; c_device := Some "cuda" |};
   {| c_type := Some "torch"; c_device := Some "cpu" |};
   {| c_type := Some "numpy"; c_device := None |}].

(** Histories of calls to the module. *)
Inductive op : Type :=
| ONewList : list cfg -> op                   (* the caller builds a list of dictionaries *)
| OConfig : list cfg -> cfg -> op             (* backend.config(d1, d2, ..., **kwargs) *)
| OLoad : env -> option nat -> op.            (* backend.load(..., config_list) on the machine as it is then *)

Definition step (s : state) (o : op) : state :=
  match o with
  | ONewList l => fst (new_list s (map EDict l))
  | OConfig l kw => config s (map EDict l) kw
  | OLoad e a => fst (load e s a)
  end.
Definition run (h : list op) : state := fold_left step h init.

(** The most recent explicit configuration in a history, if any. *)
Definition last_config (h : list op) : option (list cfg) :=
  fold_left (fun acc o => match o with OConfig l kw => Some (l ++ [kw])%list | _ => acc end) h None.

(** The dictionaries in the configuration file; [None] if it does not hold a list of dictionaries. *)
Definition file_cfgs (f : config_file) : option (list cfg) :=
  match f with
  | NoFile | InvalidJson => Some []
  | JsonDict _ => None
  | JsonList l =>
      fold_right (fun x acc => match x, acc with EDict c, Some l => Some (c :: l) | _, _ => None end) (Some []) l
  end.

(** A history is well formed if explicit lists exist when passed and the file, when used, is a list of dictionaries. *)
Definition op_ok (s : state) (o : op) : Prop :=
  match o with
  | OLoad e (Some loc) => loc < List.length (heap s)
  | OLoad e None => global s = None -> file_cfgs (json_file e) <> None
  | _ => True
  end.

Fixpoint hist_ok (s : state) (h : list op) : Prop :=
  match h with [] => True | o :: h => op_ok s o /\ hist_ok (step s o) h end.

