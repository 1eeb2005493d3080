(** C176: the device on which a loaded back-end calculates. *)
From Coq Require Import String.
From Verif Require Import Base Load_Model Load_Spec Device_Model Device_Spec Device_Proofs.
Local Open Scope string_scope.

(** C176 (part): the GPU with the number asked for is used if there is one. *)
Theorem gpu_numbered_partial : forall (e : env) (m : machine) (h1 h2 : list op) (d : string) (n : nat),
  numpy_init e = None -> hist_ok init (h1 ++ ONewList (request (Some d)) :: h2) -> describes e m ->
  available m = true -> names_gpu d n -> (n < count m)%nat ->
  calculates m (asked e h1 (request (Some d)) h2) (OnGpu n).
Proof. exact gpu_numbered. Qed.
Print Assumptions gpu_numbered_partial.

(** C176: if there is no such GPU, the default one is used if it works, and the CPU if not. *)
Theorem gpu_absent : forall (e : env) (m : machine) (h1 h2 : list op) (d : string) (n : nat),
  numpy_init e = None -> hist_ok init (h1 ++ ONewList (request (Some d)) :: h2) -> describes e m ->
  names_gpu d n -> (count m <= n)%nat \/ available m = false ->
  calculates m (asked e h1 (request (Some d)) h2) (if good m then OnGpu (current m) else OnCpu).
Proof. exact gpu_absent. Qed.
Print Assumptions gpu_absent.

(** C176: without a device, or with "cuda" or "gpu", the default GPU is used if it works, and the CPU if not. *)
Theorem gpu_any : forall (e : env) (m : machine) (h1 h2 : list op) (d : option string),
  numpy_init e = None -> hist_ok init (h1 ++ ONewList (request d) :: h2) -> describes e m ->
  d = None \/ (exists d', d = Some d' /\ (lower d' = "cuda" \/ lower d' = "gpu")) ->
  calculates m (asked e h1 (request d) h2) (if good m then OnGpu (current m) else OnCpu).
Proof. exact any_requested. Qed.
Print Assumptions gpu_any.

(** C176: the CPU is used when asked for by its plain name, whatever GPUs there are. *)
Theorem cpu_plain : forall (e : env) (m : machine) (h1 h2 : list op) (d : string),
  numpy_init e = None -> hist_ok init (h1 ++ ONewList (request (Some d)) :: h2) -> describes e m ->
  lower d = "cpu" -> calculates m (asked e h1 (request (Some d)) h2) OnCpu.
Proof. exact cpu_requested. Qed.
Print Assumptions cpu_plain.

(** C176: whatever is asked for, no GPU is used that does not exist. *)
Theorem gpu_there : forall (e : env) (m : machine) (h1 h2 : list op) (l : list cfg) (n : nat),
  (available m = true -> (0 < count m)%nat -> (current m < count m)%nat) ->
  calculates m (asked e h1 l h2) (OnGpu n) -> (n < count m)%nat.
Proof. exact gpu_exists. Qed.
Print Assumptions gpu_there.

(** C176, refuted: "cpu:0" names the CPU, yet with a GPU that works the calculations are done there. *)
Theorem cpu_zero_refuted : forall (e : env) (m : machine) (h1 h2 : list op),
  numpy_init e = None -> hist_ok init (h1 ++ ONewList (request (Some "cpu:0")) :: h2) -> describes e m ->
  torch_device m "cpu:0" = Some OnCpu /\
  calculates m (asked e h1 (request (Some "cpu:0")) h2) (if good m then OnGpu (current m) else OnCpu).
Proof. exact cpu_zero. Qed.
Print Assumptions cpu_zero_refuted.

(** A machine with two GPUs, of which the first does not work, and its environment. *)
Definition two_gpus : machine :=
  {| available := true; count := 2; current := 0; broken := fun n => (n =? 0)%nat |}.
Definition machine_env (m : machine) : env :=
  {| torch_importable := true; cuda_available := available m; cuda_devices := count m; torch_fft := true;
     torch_init := fun d => match start m d with Ok _ => true | Err _ => false end;
     numpy_init := None; json_file := NoFile |}.
Lemma machine_env_describes m : describes (machine_env m) m.
Proof.
  unfold describes. cbn. refine (conj eq_refl (conj eq_refl (conj eq_refl (conj eq_refl _)))).
  intros d. destruct (start m d) as [p|x]; split; [now exists p|reflexivity|discriminate|intros [q E]; discriminate E].
Qed.

(** C176, refuted: a GPU that does not work is given up for the CPU when it is the default one, but not when it is
    asked for by its number; the back-end that is loaded then fails at the first calculation. *)
Theorem gpu_broken_refuted :
  exists (e : env) (m : machine),
    describes e m /\ numpy_init e = None /\ hist_ok init ([] ++ ONewList (request (Some "cuda:0")) :: [])
    /\ broken m 0 = true
    /\ calculates m (asked e [] (request (Some "cuda")) []) OnCpu
    /\ calculates m (asked e [] (request (Some "cuda:0")) []) (OnGpu 0).
Proof.
  exists (machine_env two_gpus), two_gpus. refine (conj (machine_env_describes _) _).
  vm_compute. auto.
Qed.
Print Assumptions gpu_broken_refuted.

Example device_ex :
  let e := machine_env two_gpus in
  hist_ok init ([OLoad e None] ++ ONewList (request (Some "GPU:1")) :: [OLoad e (Some 1)])
  /\ names_gpu "GPU:1" 1
  /\ asked e [OLoad e None] (request (Some "GPU:1")) [OLoad e (Some 1)] = Ok (BTorch (Some "cuda:1"))
  /\ asked e [OLoad e None] (request (Some "GPU:12")) [] = Ok (BTorch (Some "cpu"))
  /\ digits 12 = "12".
Proof. vm_compute. repeat split; try lia; intros; try discriminate; auto. Qed.
