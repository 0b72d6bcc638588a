(** Module resolution and polymorphic configuration fields: /repo/src/jaqmc/utils/module_resolver.py,
    utils/config.py 84-196 (module_config), optimizer/optax.py. Python's import system is an environment: what each
    absolute module name and each file gives. Dataclasses have string-named fields; nested dataclasses and pyserde's
    type coercion are not modelled. *)
From Coq Require Import String Ascii List Bool Arith ZArith Lia.
From Verif Require Import Common Config_Model.
Import ListNotations.
Open Scope string_scope.

Inductive atom := Str (s : string) | Num (z : Z) | NoneV.
Notation data := (cfg atom).
(** ** Objects *)
Record class := { c_module : string; c_name : string; c_fields : list (string * option data) }.
Inductive obj := Class (c : class) | OtherObj (n : nat) | NoneObj.
Record module := { m_all : list string; m_attr : string -> option obj }.
Inductive imported := Module (m : module) | NotFound | Broken.
Record env := { absolute : string -> imported; file : string -> imported }.
Inductive error := ValueError | AttributeError | ModuleNotFoundError | OtherError | TypeError | MissingField | UnknownField.
Inductive res (T : Type) := Ok (t : T) | Err (e : error).
Arguments Ok {T}. Arguments Err {T}.

(** ** module_resolver.py *)
Fixpoint suffix (s t : string) : bool := (String.eqb s t || match t with EmptyString => false | String _ t' => suffix s t' end)%bool.
Definition of_import (i : imported) : res module := match i with Module m => Ok m | NotFound => Err ModuleNotFoundError | Broken => Err OtherError end.
(** 11-41; a name beginning with a dot is not modelled *)
Definition import_module_or_file (e : env) (name : string) (package : option string) : res module :=
  if suffix ".py" name then of_import (file e name) else
  match package with
  | Some p => match absolute e (p ++ "." ++ name) with
              | NotFound => of_import (absolute e name) (* except ModuleNotFoundError *)
              | i => of_import i
              end
  | None => of_import (absolute e name)
  end.
(** 44-96 *)
Definition resolve_object (e : env) (name : string) (package : option string) : res obj :=
  match (match str_split ":" name with [m] => Some (m, "") | [m; o] => Some (m, o) | _ => None end) with
  | None => Err ValueError
  | Some (m, o) =>
      match import_module_or_file e m package with
      | Err x => Err x
      | Ok md =>
          match (if String.eqb o "" then match m_all md with [] => None | a :: _ => Some a end else Some o) with
          | None => Err ValueError
          | Some o' => match m_attr md o' with
                       | None => Err AttributeError
                       | Some NoneObj => Err ValueError
                       | Some ob => Ok ob
                       end
          end
      end
  end.

(** ** config.py 84-196: one module_config field *)
Record instance := { i_class : class; i_values : list (string * data) }.
Inductive fieldvalue := Direct (a : data) | Inst (i : instance).
(** serde.from_dict with deny_unknown_fields *)
Fixpoint fill (fields : list (string * option data)) (d : list (string * data)) : res (list (string * data)) :=
  match fields with
  | [] => Ok []
  | (f, dflt) :: rest =>
      match (match dict_get d f with Some v => Some v | None => dflt end), fill rest d with
      | Some v, Ok vs => Ok ((f, v) :: vs)
      | None, _ => Err MissingField
      | _, Err x => Err x
      end
  end.
Definition from_dict (c : class) (d : list (string * data)) : res instance :=
  if forallb (fun kv => existsb (fun f => String.eqb (fst kv) (fst f)) (c_fields c)) d then
    match fill (c_fields c) d with Ok vs => Ok {| i_class := c; i_values := vs |} | Err x => Err x end
  else Err UnknownField.
Record field_spec := { default_class : option class; (* None: the default is a plain value *)
                       direct : data -> res data; (* serde.from_dict(direct_value_type, .) *)
                       import_base : option string; kwargs : list (string * data) }.
Definition class_path (c : class) : string := c_module c ++ ":" ++ c_name c.
(** s[: s.rfind(".")] if "." in s, else None (172-174) *)
Fixpoint before_last_dot (s : string) : option string :=
  match s with
  | EmptyString => None
  | String a s' => match before_last_dot s' with
                   | Some t => Some (String a t)
                   | None => if Ascii.eqb a "." then Some "" else None
                   end
  end.
Definition base_of (f : field_spec) : option string :=
  match import_base f, default_class f with
  | Some b, _ => Some b
  | None, Some c => before_last_dot (class_path c)
  | None, None => None
  end.
Definition remove_key (k : string) (d : list (string * data)) : list (string * data) := filter (fun kv => negb (String.eqb (fst kv) k)) d.
(** 126-142 *)
Definition deserializer (e : env) (f : field_spec) (x : data) : res fieldvalue :=
  match x with
  | Dict d =>
      match (match dict_get d "module", default_class f with
             | Some (Leaf (Str s)), _ => Ok s
             | Some (Leaf NoneV), _ => Err ValueError
             | Some _, _ => Err AttributeError
             | None, Some c => Ok (class_path c)
             | None, None => Err ValueError
             end) with
      | Err er => Err er
      | Ok mod_name =>
          match resolve_object e mod_name (base_of f) with
          | Err er => Err er
          | Ok (Class c) => match from_dict c (deep_merge (kwargs f) (remove_key "module" d)) with Ok i => Ok (Inst i) | Err er => Err er end
          | Ok _ => Err ValueError
          end
      end
  | Leaf _ => match direct f x with Ok v => Ok (Direct v) | Err er => Err er end
  end.
(** 144-152; {"module": ..., **to_dict(instance)}: a field called "module" would overwrite the first entry *)
Definition serializer (v : fieldvalue) : data :=
  match v with
  | Direct a => a
  | Inst i => Dict (dict_update [("module", Leaf (Str (class_path (i_class i))))] (i_values i))
  end.
(** 154-159: the value when the field is absent from the configuration *)
Definition default_value (f : field_spec) (plain : data) : res fieldvalue :=
  match default_class f with
  | None => Ok (Direct plain)
  | Some c => match from_dict c (kwargs f) with Ok i => Ok (Inst i) | Err er => Err er end
  end.

(** ** optimizer/optax.py 26-86 *)
Inductive kind := Normal | VarPositional | VarKeyword.
Inductive annotation := ScalarOrSchedule | ArrayLike | OtherAnnotation.
Inductive default := Empty | Number | OtherDefault.
Record param := { p_name : string; p_kind : kind; p_annotation : annotation; p_default : default }.
Inductive field_default := NoDefault | DefaultNumber | DefaultStandard | DefaultOther.
Record field := { f_name : string; f_default : field_default }.
Definition variadic (p : param) : bool := match p_kind p with Normal => false | _ => true end.
(** 40-68: None for a parameter that gets no field *)
Definition param_field (p : param) : res (option field) :=
  if variadic p then Ok None else
  match p_annotation p, p_default p with
  | ScalarOrSchedule, Number => Ok (Some {| f_name := p_name p; f_default := DefaultNumber |})
  | ScalarOrSchedule, _ => Ok (Some {| f_name := p_name p; f_default := DefaultStandard |})
  | ArrayLike, Empty => Ok (Some {| f_name := p_name p; f_default := NoDefault |})
  | ArrayLike, Number => Ok (Some {| f_name := p_name p; f_default := DefaultNumber |})
  | ArrayLike, OtherDefault => Ok (Some {| f_name := p_name p; f_default := DefaultOther |})
  | OtherAnnotation, Empty => Err ValueError
  | OtherAnnotation, _ => Ok None
  end.
Fixpoint fields_list (ps : list param) : res (list field) :=
  match ps with
  | [] => Ok []
  | p :: rest => match param_field p with
                 | Err x => Err x
                 | Ok o => match fields_list rest with Err x => Err x | Ok fs => Ok (match o with Some f => f :: fs | None => fs end) end
                 end
  end.
(** dataclasses.make_dataclass: no field without default after one with a default *)
Fixpoint ordered (seen : bool) (fs : list field) : bool :=
  match fs with
  | [] => true
  | f :: rest => match f_default f with NoDefault => (negb seen && ordered seen rest)%bool | _ => ordered true rest end
  end.
Definition make_optax_dataclass (ps : list param) : res (list field) :=
  match fields_list ps with Err x => Err x | Ok fs => if ordered false fs then Ok fs else Err TypeError end.
(** init: factory(name = value, ...); Python's call check: every parameter without default is given, nothing unknown
    unless the factory takes keyword arguments *)
Definition call_ok (ps : list param) (names : list string) : bool :=
  (forallb (fun p => variadic p || negb (match p_default p with Empty => true | _ => false end) || existsb (String.eqb (p_name p)) names) ps &&
   forallb (fun n => existsb (fun p => String.eqb n (p_name p)) ps) names)%bool.
(** update before init: the attribute _tx does not exist *)
Definition optax_update {T} (tx : option T) : res T := match tx with Some t => Ok t | None => Err AttributeError end.
