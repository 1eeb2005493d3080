(** C31, C32: backend selection. *)
From Coq Require Import String.
From Verif Require Import Base Load_Model Load_Spec Load_Proofs.
Local Open Scope string_scope.

(** C31: after every history of config/load calls, a load without explicit list returns the first usable
    configuration among the configured ones (else those of the file) followed by the automatic choices. *)
Theorem load_default_returns_first_usable : forall (e : env) (h : list op),
  numpy_init e = None -> hist_ok init h ->
  forall cs, match last_config h with Some c => Some c | None => file_cfgs (json_file e) end = Some cs ->
  exists b, snd (load e (run h) None) = Ok b /\ first_usable e (cs ++ default_cfgs)%list b.
Proof. exact load_default_first. Qed.
Print Assumptions load_default_returns_first_usable.

Definition ex_env : env :=
  {| torch_importable := true; cuda_available := false; cuda_devices := 0; torch_fft := true;
     torch_init := fun _ => true; numpy_init := None; json_file := NoFile |}.
Example load_default_ex :
  let h := [OLoad ex_env None; OConfig [{| c_type := Some "Torch"; c_device := Some "GPU:0" |}]
                                       {| c_type := Some "numpy"; c_device := None |};
            OLoad ex_env None] in
  hist_ok init h /\ last_config h = Some [{| c_type := Some "Torch"; c_device := Some "GPU:0" |};
                                          {| c_type := Some "numpy"; c_device := None |}]
  /\ snd (load ex_env (run h) None) = Ok BNumpy
  /\ snd (load ex_env (run [OLoad ex_env None]) None) = Ok (BTorch (Some "cpu")).
Proof. vm_compute. repeat split; intros; discriminate. Qed.

(** C31: the same for an explicit list, whatever happened in between (also earlier loads with that list). *)
Theorem load_explicit_returns_first_usable : forall (e : env) (h1 h2 : list op) (l : list cfg),
  numpy_init e = None -> hist_ok init (h1 ++ ONewList l :: h2)%list ->
  let loc := List.length (heap (run h1)) in
  exists b, snd (load e (run (h1 ++ ONewList l :: h2)%list) (Some loc)) = Ok b
            /\ first_usable e (l ++ default_cfgs)%list b.
Proof. exact load_explicit_first. Qed.
Print Assumptions load_explicit_returns_first_usable.
Example load_explicit_ex :
  hist_ok init ([] ++ ONewList [{| c_type := Some "numpy"; c_device := None |}] :: [OLoad ex_env (Some 0)])%list.
Proof. vm_compute. repeat split; lia. Qed.

(** C31: the choice is unique, hence repeated loads on an unchanged machine agree. *)
Theorem load_choice_unique : forall (e : env) (l : list cfg) (b b' : backend),
  first_usable e l b -> first_usable e l b' -> b = b'.
Proof. exact first_usable_unique. Qed.
Print Assumptions load_choice_unique.

(** C32 is violated: every load appends the fall-backs to the caller's list ... *)
Theorem load_keeps_explicit_list_refuted : forall (e : env) (s : state) (loc : nat),
  loc < List.length (heap s) ->
  nth loc (heap (fst (load e s (Some loc)))) [] = (nth loc (heap s) [] ++ fallbacks)%list.
Proof. exact load_mutates. Qed.
Print Assumptions load_keeps_explicit_list_refuted.

(** ... or to the configuration set with [config]. *)
Theorem load_keeps_configuration_refuted : forall (e : env) (s : state) (loc : nat),
  global s = Some loc -> loc < List.length (heap s) ->
  nth loc (heap (fst (load e s None))) [] = (nth loc (heap s) [] ++ fallbacks)%list.
Proof. exact load_mutates_global. Qed.
Print Assumptions load_keeps_configuration_refuted.
Example load_keeps_configuration_ex :
  let s := config init [EDict {| c_type := Some "numpy"; c_device := None |}] {| c_type := None; c_device := None |} in
  global s = Some 0 /\ 0 < List.length (heap s).
Proof. vm_compute. split; [reflexivity|lia]. Qed.

(** The documented list form of [config] makes every later default load raise AttributeError. *)
Theorem config_list_form_refuted : forall (e : env) (s : state) (l : list cfg) (kw : cfg),
  snd (load e (config s [EList l] kw) None) = Err AttributeError.
Proof. exact config_list_fails. Qed.
Print Assumptions config_list_form_refuted.

(** A configuration file with a single dictionary makes [load] raise TypeError. *)
Theorem load_single_dict_file_refuted : forall (e : env) (s : state) (c : cfg),
  global s = None -> json_file e = JsonDict c -> snd (load e s None) = Err TypeError.
Proof. exact json_dict_fails. Qed.
Print Assumptions load_single_dict_file_refuted.
Example load_single_dict_file_ex : global init = None /\
  exists e, json_file e = JsonDict {| c_type := Some "numpy"; c_device := None |} /\ numpy_init e = None.
Proof.
  split; [reflexivity|].
  exists {| torch_importable := false; cuda_available := false; cuda_devices := 0; torch_fft := false;
     torch_init := fun _ => false; numpy_init := None;
     json_file := JsonDict {| c_type := Some "numpy"; c_device := None |} |}. split; reflexivity.
Qed.
