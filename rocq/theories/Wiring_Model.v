(** Model of /repo/src/jaqmc/utils/wiring.py: wire (lines 100-150), check_wired
    (lines 153-183), LateInit access (lines 44-55). *)
From Coq Require Import String List Bool.
From Verif Require Import Common.
Import ListNotations.
Open Scope string_scope.

(** A dataclass instance: its fields in declaration order.
    - [FPlain]: a config field whose value is not a dataclass (line 136-139; lists and
      dictionaries of components are plain values, too);
    - [FClass]: a config field whose value is a dataclass *type*: is_dataclass is true
      of it but wire refuses it (line 131);
    - [FSub]: a config field holding a dataclass instance;
    - [FDep name required value]: a runtime_dep; [required] iff its default is LateInit
      (line 94); [None] is "not set". Optional deps always hold a value (their default). *)
Inductive comp (V : Type) := Comp (fields : list (field V))
with field (V : Type) :=
| FPlain
| FClass
| FSub (c : comp V)
| FDep (name : string) (required : bool) (value : option V).
Arguments Comp {V} fields.
Arguments FPlain {V}.
Arguments FClass {V}.
Arguments FSub {V} c.
Arguments FDep {V} name required value.

(** Why wire stopped: a TypeError (line 132) or a ValueError naming the missing deps
    of one component (lines 144-148). *)
Inductive wire_error := WTypeError | WMissing (names : list string).

(** wire, lines 100-150.  The component is mutated field by field; a failing nested
    call aborts at once (fields after it are untouched); the missing list is checked
    at the end.  Result: the component as left behind, and the error if any. *)
Fixpoint wire {V} (kw : list (string * V)) (c : comp V) {struct c} : comp V * option wire_error :=
  match c with
  | Comp fs =>
      let '(fs', missing, err) :=
        (fix go (fs : list (field V)) : list (field V) * list string * option wire_error :=
           match fs with
           | [] => ([], [], None)
           | f :: rest =>
               match f with
               | FPlain => let '(r, m, e) := go rest in (FPlain :: r, m, e)
               | FClass => (FClass :: rest, [], Some WTypeError)
               | FSub c0 =>
                   let (c1, e0) := wire kw c0 in
                   match e0 with
                   | Some e => (FSub c1 :: rest, [], Some e)
                   | None => let '(r, m, e) := go rest in (FSub c1 :: r, m, e)
                   end
               | FDep n req v =>
                   let '(r, m, e) := go rest in
                   match dict_get kw n with
                   | Some x => (FDep n req (Some x) :: r, m, e)
                   | None => (FDep n req v :: r, if req then n :: m else m, e)
                   end
               end
           end) fs in
      (Comp fs',
       match err with
       | Some e => Some e
       | None => match missing with [] => None | _ => Some (WMissing missing) end
       end)
  end.

(** check_wired, lines 153-183: only the component's own fields. *)
Definition check_wired {V} (c : comp V) : res unit :=
  match c with
  | Comp fs =>
      let missing := flat_map (fun f => match f with
                                        | FDep n true None => [n]
                                        | _ => [] end) fs in
      match missing with [] => Ok tt | _ => Raise ValueError end
  end.

(** Attribute access through LateInit (lines 44-55) for the dep [n] of a component. *)
Definition get_dep {V} (c : comp V) (n : string) : res V :=
  match c with
  | Comp fs =>
      match find (fun f => match f with FDep m _ _ => String.eqb m n | _ => false end) fs with
      | Some (FDep _ _ (Some v)) => Ok v
      | _ => Raise AttributeError
      end
  end.
