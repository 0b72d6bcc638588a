(** Model of the way from the command line to the run:
    /repo/src/jaqmc/utils/cli.py (make_cli's command, 34-39; load_yaml, 44-60),
    /repo/src/jaqmc/utils/runtime.py (LoggingConfig 18-53, JaxConfig 63-103,
    DistributedConfig 106-150, configure_runtime 153-165) and
    /repo/src/jaqmc/workflow/base.py (Workflow.__init__ 104-119, __call__ 128-132,
    prepare 154-186).  Reading the configuration is Config_Model, the file
    operations of prepare are Backup_Model.

    Not modelled: click's parsing of the arguments, the formatting of log lines, the
    conversion of configuration values by serde (an arbitrary function here), what
    JAX does with its flags, and what [run] does. *)
From Coq Require Import String List Bool Arith ZArith.
From Verif Require Import Common Config_Model Backup_Model.
Import ListNotations.
Open Scope string_scope.
Set Implicit Arguments.

(** The effects of a command, in the order in which they happen. *)
Inductive flag := FlagBool (b : bool) | FlagStr (s : string).
Inductive event :=
| ClearJaxHandlers
| AddHandler (level stream : string)
| SetLevel (level : string)
| JaxFlag (name : string) (v : flag)
| Sleep (seconds : Z)
| Connect (address : string) (num_processes process_id timeout : Z)   (* jax.distributed.initialize *)
| FileOp (o : op)
| Start.                                                                (* run() is entered *)

(** A piece of the program: what it did, and what it returned or raised. *)
Definition act (A : Type) := (list event * res A)%type.
Definition ret {A} (a : A) : act A := ([], Ok a).
Definition lift {A} (r : res A) : act A := ([], r).
Definition emit (es : list event) : act unit := (es, Ok tt).
Definition abind {A B} (m : act A) (k : A -> act B) : act B :=
  match m with
  | (es, Raise e) => (es, Raise e)
  | (es, Ok a) => let (es', r) := k a in ((es ++ es')%list, r)
  end.

(** The three sections, runtime.py 18-28, 63-90, 106-125. *)
Record logging_config := { level : string; stream : string }.
Record jax_config := { enable_x64 : bool; debug_infs : bool; debug_nans : bool;
                       disable_jit : bool; matmul_precision : option string }.
Record distributed_config := { coordinator_address : option string; num_processes : Z;
                               process_id : Z; initialization_timeout : Z; wait_seconds : Z }.

(** LoggingConfig.apply and stream_obj, runtime.py 30-53; [str.upper] is left out of
    the level (the event carries the configured word); [handlers] is whether the root
    logger has a handler already. *)
Definition apply_logging (handlers : bool) (c : logging_config) : act unit :=
  abind (emit [ClearJaxHandlers]) (fun _ =>
  abind (if handlers then ret tt
         else if (String.eqb (stream c) "stdout" || String.eqb (stream c) "stderr")%bool
              then emit [AddHandler (level c) (stream c)]
              else lift (Raise ValueError)) (fun _ =>
  emit [SetLevel (level c)])).

(** JaxConfig.apply, runtime.py 92-103. *)
Definition apply_jax (c : jax_config) : act unit :=
  emit ([JaxFlag "jax_enable_x64" (FlagBool (enable_x64 c));
         JaxFlag "jax_debug_infs" (FlagBool (debug_infs c));
         JaxFlag "jax_debug_nans" (FlagBool (debug_nans c));
         JaxFlag "jax_disable_jit" (FlagBool (disable_jit c))] ++
        match matmul_precision c with
        | Some p => [JaxFlag "jax_default_matmul_precision" (FlagStr p)]
        | None => []
        end)%list.

(** DistributedConfig.init_runtime, runtime.py 127-150; the result is
    jax.process_index() afterwards. *)
Definition init_runtime (c : distributed_config) : act nat :=
  match coordinator_address c with
  | None => ret O
  | Some a =>
      if Z.eqb (num_processes c) 1 then ret O
      else
        abind (if Z.ltb 0 (process_id c) then emit [Sleep (wait_seconds c)] else ret tt) (fun _ =>
        abind (emit [Connect a (num_processes c) (process_id c) (initialization_timeout c)]) (fun _ =>
        ret (Z.to_nat (process_id c))))
  end.

Section Command.
Variable V : Type.
(** Python constants as configuration leaves, and serde's conversion of a section. *)
Variables (py_str : string -> V) (py_bool : bool -> V) (py_int : Z -> V) (py_none : V).
Variable yaml_load : string -> res (cfg V).
Variable coerce : V -> cfg V -> res V.
Variable to_logging : dict V -> res logging_config.
Variable to_jax : dict V -> res jax_config.
Variable to_distributed : dict V -> res distributed_config.

(** The fields and their defaults. *)
Definition logging_schema : schema V :=
  [("level", Some (Leaf (py_str "info"))); ("stream", Some (Leaf (py_str "stderr")))].
Definition jax_schema : schema V :=
  [("enable_x64", Some (Leaf (py_bool false))); ("debug_infs", Some (Leaf (py_bool false)));
   ("debug_nans", Some (Leaf (py_bool false))); ("disable_jit", Some (Leaf (py_bool false)));
   ("default_matmul_precision", Some (Leaf (py_str "float32")))].
Definition distributed_schema : schema V :=
  [("coordinator_address", Some (Leaf py_none)); ("num_processes", Some (Leaf (py_int 1)));
   ("process_id", Some (Leaf (py_int 0))); ("initialization_timeout", Some (Leaf (py_int 300)));
   ("wait_second_before_connect", Some (Leaf (py_int 10)))].

(** cfg.get(name, Class) followed by the conversion of the fields. *)
Definition get_section {C} (m : manager V) (name : string) (sch : schema V)
  (conv : dict V -> res C) : act (manager V * C) :=
  let (m', r) := get_dataclass m name sch [] None in
  lift (bind r (fun d => bind (conv d) (fun c => Ok (m', c)))).

(** load_yaml, cli.py 44-60, on what yaml.safe_load returned (an empty file gives the
    leaf None). *)
Definition load_yaml (parsed : cfg V) : res (dict V) :=
  match parsed with Dict d => Ok d | Leaf _ => Raise ValueError end.
Fixpoint load_all (ymls : list (cfg V)) : res (list (dict V)) :=
  match ymls with
  | [] => Ok []
  | y :: rest => bind (load_yaml y) (fun d => bind (load_all rest) (fun ds => Ok (d :: ds)))
  end.

(** configure_runtime, runtime.py 153-165; returns jax.process_index() too. *)
Definition configure_runtime (handlers dry : bool) (m : manager V) : act (manager V * nat) :=
  abind (get_section m "logging" logging_schema to_logging) (fun mc =>
  abind (apply_logging handlers (snd mc)) (fun _ =>
  abind (get_section (fst mc) "jax" jax_schema to_jax) (fun mj =>
  abind (apply_jax (snd mj)) (fun _ =>
  if dry then ret (fst mj, O)
  else
    abind (get_section (fst mj) "distributed" distributed_schema to_distributed) (fun md =>
    abind (init_runtime (snd md)) (fun i => ret (fst md, i))))))).

(** A workflow class: the presets it adds and the reads its constructor does, both
    decided by the merged configuration it is given, and what the constructor makes of
    its own section (it may raise). *)
Record settings := { ignore_extra : bool; namespace : option string }.
Record workflow := {
  w_calls : dict V -> list (Config_Model.call V);
  w_settings : dict V -> res settings
}.
Variable w : workflow.
Variable to_yaml : dict V -> string.

(** Workflow.prepare, base.py 154-186. *)
Definition prepare_workflow (f : fs) (stamp : string) (dry : bool) (index : nat)
  (s : settings) (m : manager V) : act unit :=
  if Nat.eqb index 0 then
    abind (lift (finalize m (negb (ignore_extra s)))) (fun _ =>
    match prepare_ops f (namespace s)
            {| process_index := index; dry_run := dry; finalize_ok := true;
               current_yaml := to_yaml (resolved m); timestamp := stamp |} with
    | Some os => emit (map FileOp os)
    | None => lift (Raise OSError)
    end)
  else ret tt.

(** The workflow function of a CLI entry: [Workflow(cfg)(dry_run)]. *)
Definition call_workflow (f : fs) (stamp : string) (dry : bool) (index : nat) (m : manager V) : act unit :=
  abind (lift (w_settings w (merged m))) (fun s =>
  let m' := fold_left (do_call coerce) (w_calls w (merged m)) m in
  abind (prepare_workflow f stamp dry index s m') (fun _ =>
  if dry then ret tt else emit [Start])).

(** command, cli.py 34-39. *)
Definition command (handlers : bool) (f : fs) (stamp : string) (ymls : list (cfg V))
  (dotlist : list string) (dry : bool) : act unit :=
  abind (lift (load_all ymls)) (fun configs =>
  abind (lift (make yaml_load configs dotlist)) (fun m =>
  abind (configure_runtime handlers dry m) (fun mi =>
  call_workflow f stamp dry (snd mi) (fst mi)))).
End Command.
