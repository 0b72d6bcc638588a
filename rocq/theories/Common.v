(** Shared vocabulary of the model: Python-like exceptions, results, strings.

    Nothing in this file is specific to one module of /repo; it fixes how Python
    notions that occur everywhere (raising, dictionaries in insertion order,
    string joins) are represented. *)
From Coq Require Import String Ascii List Bool Arith ZArith Lia.
Import ListNotations.
Open Scope string_scope.

(** The Python exception classes that the modelled code raises or catches. *)
Inductive exn :=
| FileNotFoundError | RuntimeError | ValueError | KeyError | TypeError
| OSError | EOFError | BadZipFile | SystemExit | IndexError | AttributeError
| NotImplementedError | ZeroDivisionError | SerdeError | AssertionError | UnboundLocalError | NotSetupYet | NoSafeDataAvailable.

(** A Python call either returns or raises. *)
Inductive res (A : Type) :=
| Ok (a : A)
| Raise (e : exn).
Arguments Ok {A} a.
Arguments Raise {A} e.

Definition bind {A B} (r : res A) (f : A -> res B) : res B :=
  match r with Ok a => f a | Raise e => Raise e end.

(** Python dict in insertion order: assigning to an existing key keeps its
    position, a new key goes to the end. *)
Fixpoint dict_get {A} (d : list (string * A)) (k : string) : option A :=
  match d with
  | [] => None
  | (k', v) :: d' => if String.eqb k k' then Some v else dict_get d' k
  end.

Fixpoint dict_set {A} (d : list (string * A)) (k : string) (v : A) : list (string * A) :=
  match d with
  | [] => [(k, v)]
  | (k', v') :: d' => if String.eqb k k' then (k, v) :: d' else (k', v') :: dict_set d' k v
  end.

Definition dict_keys {A} (d : list (string * A)) : list string := map fst d.

(** [{**a, **b}] / [a.update(b)]. *)
Definition dict_update {A} (a b : list (string * A)) : list (string * A) :=
  fold_left (fun d kv => dict_set d (fst kv) (snd kv)) b a.

(** [sep.join(parts)] *)
Fixpoint str_join (sep : string) (parts : list string) : string :=
  match parts with
  | [] => ""
  | [p] => p
  | p :: rest => p ++ sep ++ str_join sep rest
  end.

(** [s.endswith(suf)] *)
Fixpoint str_suffixb (suf s : string) : bool :=
  String.eqb s suf ||
  match s with
  | EmptyString => false
  | String _ s' => str_suffixb suf s'
  end.

(** [s[n:]] *)
Fixpoint str_drop (n : nat) (s : string) : string :=
  match n, s with
  | O, _ => s
  | S n', String _ s' => str_drop n' s'
  | S _, EmptyString => EmptyString
  end.

(** Does the character occur in the string? *)
Fixpoint str_has (c : ascii) (s : string) : bool :=
  match s with
  | EmptyString => false
  | String c' s' => Ascii.eqb c c' || str_has c s'
  end.
