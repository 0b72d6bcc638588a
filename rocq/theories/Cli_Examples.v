(** C96: concrete commands. *)
From Coq Require Import String List Bool Arith ZArith.
From Verif Require Import Common Config_Model Config_Spec Backup_Model Cli_Model Cli_Spec Cli_Props.
Import ListNotations.
Open Scope string_scope.

Inductive scalar := SNone | SBool (b : bool) | SInt (z : Z) | SStr (s : string).
Definition ex_yaml (s : string) : res (cfg scalar) :=
  Ok (Leaf (if String.eqb s "true" then SBool true else if String.eqb s "1" then SInt 1
            else if String.eqb s "2" then SInt 2 else if String.eqb s "64" then SInt 64 else SStr s)).
Definition ex_coerce (d : scalar) (v : cfg scalar) : res scalar :=
  match v with Leaf x => Ok x | Dict _ => Raise TypeError end.
Definition ex_str (d : dict scalar) k : res string := match dict_get d k with Some (Leaf (SStr s)) => Ok s | _ => Raise SerdeError end.
Definition ex_bool (d : dict scalar) k : res bool := match dict_get d k with Some (Leaf (SBool s)) => Ok s | _ => Raise SerdeError end.
Definition ex_int (d : dict scalar) k : res Z := match dict_get d k with Some (Leaf (SInt s)) => Ok s | _ => Raise SerdeError end.
Definition ex_opt (d : dict scalar) k : res (option string) :=
  match dict_get d k with Some (Leaf (SStr s)) => Ok (Some s) | Some (Leaf SNone) => Ok None | _ => Raise SerdeError end.
Definition ex_logging (d : dict scalar) : res logging_config :=
  bind (ex_str d "level") (fun l => bind (ex_str d "stream") (fun s => Ok {| level := l; stream := s |})).
Definition ex_jax (d : dict scalar) : res jax_config :=
  bind (ex_bool d "enable_x64") (fun a => bind (ex_bool d "debug_infs") (fun b => bind (ex_bool d "debug_nans") (fun c =>
  bind (ex_bool d "disable_jit") (fun e => bind (ex_opt d "default_matmul_precision") (fun p =>
  Ok {| enable_x64 := a; debug_infs := b; debug_nans := c; disable_jit := e; matmul_precision := p |}))))).
Definition ex_distributed (d : dict scalar) : res distributed_config :=
  bind (ex_opt d "coordinator_address") (fun a => bind (ex_int d "num_processes") (fun n => bind (ex_int d "process_id") (fun i =>
  bind (ex_int d "initialization_timeout") (fun t => bind (ex_int d "wait_second_before_connect") (fun x =>
  Ok {| coordinator_address := a; num_processes := n; process_id := i; initialization_timeout := t; wait_seconds := x |}))))).
Definition ex_workflow : workflow scalar :=
  {| w_calls := fun _ => [UsePreset [("workflow", Dict [("batch_size", Leaf (SInt 4096))])];
                          GetDataclass "workflow" [("seed", Some (Leaf SNone)); ("batch_size", None)] [] None];
     w_settings := fun _ => Ok {| ignore_extra := false; namespace := Some "train" |} |}.
Definition ex_to_yaml (d : dict scalar) : string := str_join " " (map fst d).
Definition ex := command SStr SBool SInt SNone ex_yaml ex_coerce ex_logging ex_jax ex_distributed ex_workflow ex_to_yaml
  false [] "20260101_000000".

Lemma ex_yaml_wf s c : ex_yaml s = Ok c -> wf c.
Proof. unfold ex_yaml. intros H. inversion H. constructor. Qed.

Definition logging_events := [ClearJaxHandlers; AddHandler "info" "stderr"; SetLevel "info"].
Definition jax_events (x64 : bool) :=
  [JaxFlag "jax_enable_x64" (FlagBool x64); JaxFlag "jax_debug_infs" (FlagBool false);
   JaxFlag "jax_debug_nans" (FlagBool false); JaxFlag "jax_disable_jit" (FlagBool false);
   JaxFlag "jax_default_matmul_precision" (FlagStr "float32")].

(** One process, one YAML file, one override. *)
Example C96_ex_one_process :
  ex [Dict [("jax", Dict [("enable_x64", Leaf (SBool true))])]] ["workflow.batch_size=64"] false =
  ((logging_events ++ jax_events true ++
    [FileOp (Truncate "train_config.yaml");
     FileOp (Write "train_config.yaml" "logging jax distributed workflow"); Start])%list, Ok tt).
Proof. vm_compute. reflexivity. Qed.

(** The second of two processes: it waits, connects, and writes no file. *)
Definition two (id : string) :=
  ["distributed.coordinator_address=host:1234"; "distributed.num_processes=2"; "distributed.process_id=" ++ id].
Example C96_ex_second_process :
  ex [] (two "1") false =
  ((logging_events ++ jax_events false ++ [Sleep 10; Connect "host:1234" 2 1 300; Start])%list, Ok tt).
Proof. vm_compute. reflexivity. Qed.

(** A misspelt section: process 0 stops, process 1 runs. *)
Example C96_ex_typo_second_process :
  ex [] ("wrkflow.batch_size=64" :: two "1") false =
  ((logging_events ++ jax_events false ++ [Sleep 10; Connect "host:1234" 2 1 300; Start])%list, Ok tt).
Proof. vm_compute. reflexivity. Qed.
Example C96_ex_typo_first_process :
  ex [] ["wrkflow.batch_size=64"] false = ((logging_events ++ jax_events false)%list, Raise SystemExit).
Proof. vm_compute. reflexivity. Qed.

(** An empty file (None) among the files. *)
Example C96_ex_empty_file : ex [Dict []; Leaf SNone] ["workflow.batch_size=64"] false = ([], Raise ValueError).
Proof. apply C96_file_must_be_a_mapping with SNone. simpl. auto. Qed.

(** The same configuration: the run starts, the dry run refuses it. *)
Theorem C96_dry_run_refuses_what_the_run_accepts : exists ymls dotlist,
  snd (ex ymls dotlist false) = Ok tt /\ In Start (fst (ex ymls dotlist false)) /\
  snd (ex ymls dotlist true) = Raise SystemExit.
Proof.
  exists [], ["distributed.num_processes=1"]. vm_compute. split; [reflexivity|]. split; [|reflexivity].
  repeat first [left; reflexivity | right].
Qed.

(** The resolved configuration that the first example saves, given back as the only
    file: the run accepts it, the dry run does not. *)
Definition saved : cfg scalar :=
  match make ex_yaml [] ["workflow.batch_size=64"] with
  | Ok m => match snd (configure_runtime SStr SBool SInt SNone ex_logging ex_jax ex_distributed false false m) with
            | Ok (m1, _) => Dict (resolved (fold_left (do_call ex_coerce) (w_calls ex_workflow (merged m1)) m1))
            | Raise _ => Leaf SNone
            end
  | Raise _ => Leaf SNone
  end.
Example C96_ex_saved_configuration :
  snd (ex [saved] [] false) = Ok tt /\ snd (ex [saved] [] true) = Raise SystemExit.
Proof. vm_compute. split; reflexivity. Qed.

(** The hypotheses of the general verdict hold for the first example. *)
Example C96_ex_verdict :
  snd (ex [] ["distributed.num_processes=1"] true) = Raise SystemExit <->
  writes_in (@nil (string * cfg scalar)) "distributed" \/
  writes_in [("distributed", Dict [("num_processes", Leaf (SInt 1))])] "distributed".
Proof.
  eapply (C96_dry_run_verdict scalar SStr SBool SInt SNone ex_yaml ex_coerce ex_logging ex_jax ex_distributed
           ex_workflow ex_to_yaml false [] "20260101_000000" [] ["distributed.num_processes=1"] []
           {| user_config := []; cli_config := [("distributed", Dict [("num_processes", Leaf (SInt 1))])];
              presets := []; merged := [("distributed", Dict [("num_processes", Leaf (SInt 1))])];
              resolved := []; visited := [] |}).
  - apply ex_yaml_wf.
  - constructor.
  - reflexivity.
  - reflexivity.
  - vm_compute. reflexivity.
  - reflexivity.
  - reflexivity.
  - simpl. intros n q [<-|[]]. destruct q; [discriminate|]. rewrite Config_Proofs.dotted_cons by discriminate. discriminate.
  - vm_compute. repeat first [left; reflexivity | right].
Qed.
