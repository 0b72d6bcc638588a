(** Model of /repo/src/jaqmc/utils/config.py: ConfigManager and its dict helpers.

    Configurations are the Python dictionaries that come out of YAML: string keys,
    leaves of an arbitrary type [V] (numbers, strings, None, lists), nested
    dictionaries.  Python-level aliasing (two dictionaries sharing a sub-dictionary
    object) is not modelled: every dictionary is a value. *)
From Coq Require Import String Ascii List Bool Arith Lia.
From Verif Require Import Common.
Import ListNotations.
Open Scope string_scope.
Set Implicit Arguments.

Inductive cfg (V : Type) : Type :=
| Leaf (v : V)
| Dict (d : list (string * cfg V)).
Arguments Leaf {V} v.
Arguments Dict {V} d.

Definition dict (V : Type) := list (string * cfg V).

(** [s.split(c)] for a one-character separator. *)
Fixpoint str_split (c : ascii) (s : string) : list string :=
  match s with
  | EmptyString => [""]
  | String a s' =>
      if Ascii.eqb a c then "" :: str_split c s'
      else match str_split c s' with
           | h :: t => String a h :: t
           | [] => [String a ""]
           end
  end.

(** [s.partition(c)], without the middle component. *)
Fixpoint str_partition (c : ascii) (s : string) : string * string :=
  match s with
  | EmptyString => ("", "")
  | String a s' =>
      if Ascii.eqb a c then ("", s')
      else let (h, t) := str_partition c s' in (String a h, t)
  end.

Section Config.
Variable V : Type.

(** deep_merge, lines 681-693, one value: what is stored for a key when the
    override holds [o] and the result so far holds [b] (lines 688-692). *)
Fixpoint merge_value (o : cfg V) (b : option (cfg V)) : cfg V :=
  match o with
  | Leaf _ => o
  | Dict od =>
      match b with
      | Some (Dict bd) =>
          Dict ((fix go (od : list (string * cfg V)) (acc : dict V) : dict V :=
                   match od with
                   | [] => acc
                   | (k, v) :: rest => go rest (dict_set acc k (merge_value v (dict_get acc k)))
                   end) od bd)
      | _ => o
      end
  end.

(** deep_merge(base, override), lines 681-693. *)
Fixpoint deep_merge (base override : dict V) : dict V :=
  match override with
  | [] => base
  | (k, v) :: rest => deep_merge (dict_set base k (merge_value v (dict_get base k))) rest
  end.

(** _set_path, lines 701-705, on the split path.  Walking through a value that is
    not a dictionary fails: [setdefault] on it is an AttributeError, the final item
    assignment a TypeError. *)
Fixpoint set_path (d : dict V) (parts : list string) (value : cfg V) : res (dict V) :=
  match parts with
  | [] => Raise IndexError
  | [k] => Ok (dict_set d k value)
  | k :: rest =>
      let sub := match dict_get d k with
                 | None => Ok []
                 | Some (Dict d') => Ok d'
                 | Some (Leaf _) =>
                     Raise (match rest with [_] => TypeError | _ => AttributeError end)
                 end in
      bind sub (fun d' => bind (set_path d' rest value) (fun r => Ok (dict_set d k (Dict r))))
  end.

(** _get_path, lines 708-714. *)
Fixpoint get_path (d : dict V) (parts : list string) : option (cfg V) :=
  match parts with
  | [] => None
  | [k] => dict_get d k
  | k :: rest =>
      match dict_get d k with
      | Some (Dict d') => get_path d' rest
      | _ => None
      end
  end.

(** yaml.safe_load, an external function. *)
Variable yaml_load : string -> res (cfg V).

(** _dotlist_to_dict, lines 717-722. *)
Fixpoint dotlist_from (acc : dict V) (dotlist : list string) : res (dict V) :=
  match dotlist with
  | [] => Ok acc
  | entry :: rest =>
      let (key, raw) := str_partition "=" entry in
      bind (yaml_load raw) (fun v =>
      bind (set_path acc (str_split "." key) v) (fun acc' => dotlist_from acc' rest))
  end.
Definition dotlist_to_dict (dotlist : list string) : res (dict V) := dotlist_from [] dotlist.

(** _find_unused_yaml_path, lines 773-790; a set is modelled as a list. *)
Definition sub_visited (k : string) (visited : list string) : list string :=
  map (str_drop (String.length k + 1)) (filter (String.prefix (k ++ ".")) visited).

Fixpoint unused_value (visited : list string) (k : string) (v : cfg V) : list string :=
  if existsb (String.eqb k) visited then []
  else match v with
       | Leaf _ => [k]
       | Dict d =>
           map (fun s => k ++ "." ++ s)
             ((fix go (d : list (string * cfg V)) : list string :=
                 match d with
                 | [] => []
                 | (k', v') :: rest => (unused_value (sub_visited k visited) k' v' ++ go rest)%list
                 end) d)
       end.
Definition find_unused (visited : list string) (config : dict V) : list string :=
  flat_map (fun kv => unused_value visited (fst kv) (snd kv)) config.

(** State of a ConfigManager, lines 334-361. *)
Record manager := {
  user_config : dict V;
  cli_config : dict V;
  presets : dict V;
  merged : dict V;
  resolved : dict V;
  visited : list string
}.

(** __init__, lines 334-361. *)
Definition make (configs : list (dict V)) (dotlist : list string) : res manager :=
  let user := fold_left deep_merge configs [] in
  bind (dotlist_to_dict dotlist) (fun cli =>
  Ok {| user_config := user; cli_config := cli; presets := [];
        merged := deep_merge user cli; resolved := []; visited := [] |}).

(** use_preset, lines 390-401. *)
Definition use_preset (m : manager) (preset : dict V) : manager :=
  let p := deep_merge (presets m) preset in
  {| user_config := user_config m; cli_config := cli_config m; presets := p;
     merged := deep_merge (deep_merge p (user_config m)) (cli_config m);
     resolved := resolved m; visited := visited m |}.

(** _extract_relevant, lines 594-596. *)
Definition extract_relevant (m : manager) (name : string) : manager * option (cfg V) :=
  ({| user_config := user_config m; cli_config := cli_config m; presets := presets m;
      merged := merged m; resolved := resolved m; visited := name :: visited m |},
   get_path (merged m) (str_split "." name)).

(** The common tail of the getters: [_set_path(self.resolved_config, name, result)]
    and return what was asked for. *)
Definition record_resolved {A} (m : manager) (name : string) (stored : cfg V) (result : A)
  : manager * res A :=
  match set_path (resolved m) (str_split "." name) stored with
  | Raise e => (m, Raise e)
  | Ok r => ({| user_config := user_config m; cli_config := cli_config m; presets := presets m;
                merged := merged m; resolved := r; visited := visited m |}, Ok result)
  end.

(** [type(default)(user_val)] for the primitive types of line 25. *)
Variable coerce : V -> cfg V -> res V.

(** _get_primitive, lines 598-608. *)
Definition get_primitive (m : manager) (name : string) (default : V) : manager * res V :=
  let (m, user_val) := extract_relevant m name in
  match (match user_val with Some v => coerce default v | None => Ok default end) with
  | Raise e => (m, Raise e)
  | Ok r => record_resolved m name (Leaf r) r
  end.

(** _get_container, lines 610-625. *)
Definition get_container (m : manager) (name : string) (default : cfg V) : manager * res (cfg V) :=
  let (m, user_val) := extract_relevant m name in
  let result := match user_val with
                | None => default
                | Some (Dict u) => match default with
                                   | Dict d => Dict (deep_merge d u)
                                   | Leaf _ => Dict u
                                   end
                | Some (Leaf v) => Leaf v
                end in
  record_resolved m name result result.

(** A dataclass as far as the configuration system sees it: fields, each with an
    optional class default.  [serde.from_dict] with deny_unknown_fields (lines 62-68)
    refuses unknown fields and missing fields without default.  Nested dataclasses,
    module_config fields and type coercion of field values are not modelled (field
    values pass through unchanged). *)
Definition schema := list (string * option (cfg V)).

Fixpoint fill_fields (sch : schema) (data : dict V) : res (dict V) :=
  match sch with
  | [] => Ok []
  | (f, dflt) :: rest =>
      match dict_get data f, dflt with
      | Some v, _ | None, Some v => bind (fill_fields rest data) (fun r => Ok ((f, v) :: r))
      | None, None => Raise SerdeError
      end
  end.
Definition serde_from_dict (sch : schema) (data : dict V) : res (dict V) :=
  if forallb (fun kv => existsb (String.eqb (fst kv)) (map fst sch)) data
  then fill_fields sch data
  else Raise SerdeError.

Definition drop_module (d : dict V) : dict V :=
  filter (fun kv => negb (String.eqb (fst kv) "module")) d.

(** _get_dataclass, lines 627-662; [base] is [serde.to_dict(default)] for an instance
    and [] for a class; [module] is the empty string when absent. *)
Definition get_dataclass (m : manager) (name : string) (sch : schema) (base : dict V)
  (module : option V) : manager * res (dict V) :=
  let (m, user_config) := extract_relevant m name in
  let data := match user_config with Some (Dict d) => drop_module d | _ => [] end in
  match serde_from_dict sch (deep_merge base data) with
  | Raise e => (m, Raise e)
  | Ok r =>
      let stored := match module with None => r | Some md => ("module", Leaf md) :: r end in
      record_resolved m name (Dict stored) r
  end.

(** Finalize, lines 403-440 (logging is not modelled): the two reports, or SystemExit. *)
Definition finalize (m : manager) (raise_on_unused : bool) : res (list string * list string) :=
  let unused_yaml := find_unused (visited m) (user_config m) in
  let unused_cli := find_unused (visited m) (cli_config m) in
  match unused_yaml, unused_cli with
  | [], [] => Ok ([], [])
  | _, _ => if raise_on_unused then Raise SystemExit else Ok (unused_yaml, unused_cli)
  end.

(** Calls on a manager. *)
Inductive call :=
| UsePreset (p : dict V)
| GetPrimitive (name : string) (default : V)
| GetContainer (name : string) (default : cfg V)
| GetDataclass (name : string) (sch : schema) (base : dict V) (module : option V).

Definition do_call (m : manager) (c : call) : manager :=
  match c with
  | UsePreset p => use_preset m p
  | GetPrimitive n d => fst (get_primitive m n d)
  | GetContainer n d => fst (get_container m n d)
  | GetDataclass n s b md => fst (get_dataclass m n s b md)
  end.

End Config.
