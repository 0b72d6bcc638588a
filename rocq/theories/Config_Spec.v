(** Specification vocabulary for configurations: what it means for a source to say
    something about a key path, independent of how sources are merged. *)
From Coq Require Import String Ascii List Bool.
From Verif Require Import Common Config_Model.
Import ListNotations.
Open Scope string_scope.

(** A key path: at least one component, no component contains a dot. *)
Definition is_path (p : list string) : Prop :=
  p <> [] /\ Forall (fun k => str_has "." k = false) p.

Definition dotted (p : list string) : string := str_join "." p.

(** Follow a path through nested mappings (specification of lookup, by recursion on
    the value instead of the dictionary). *)
Fixpoint at_path {V} (c : cfg V) (p : list string) : option (cfg V) :=
  match p with
  | [] => Some c
  | k :: rest =>
      match c with
      | Leaf _ => None
      | Dict d => match dict_get d k with Some c' => at_path c' rest | None => None end
      end
  end.

(** What one source says about a path: a value, "something else is there" (a proper
    prefix of the path is set to a non-mapping, so the path cannot exist), or nothing. *)
Inductive says V := Sets (v : cfg V) | Masks | Silent.
Arguments Sets {V} v.
Arguments Masks {V}.
Arguments Silent {V}.

Fixpoint source_says {V} (c : cfg V) (p : list string) : says V :=
  match p with
  | [] => Sets c
  | k :: rest =>
      match c with
      | Leaf _ => Masks
      | Dict d => match dict_get d k with Some c' => source_says c' rest | None => Silent end
      end
  end.

(** Highest-priority source first: the first one that is not silent decides. *)
Fixpoint decided {V} (sources : list (dict V)) (p : list string) : says V :=
  match sources with
  | [] => Silent
  | s :: rest => match source_says (Dict s) p with Silent => decided rest p | x => x end
  end.

(** Well-formed: no duplicate key at any level (true of every Python dict). *)
Inductive wf {V} : cfg V -> Prop :=
| wf_leaf v : wf (Leaf v)
| wf_dict d : NoDup (map fst d) -> (forall k c, In (k, c) d -> wf c) -> wf (Dict d).

Definition prefix_of (p q : list string) : Prop := exists r, q = (p ++ r)%list.
Definition unrelated (p q : list string) : Prop := ~ prefix_of p q /\ ~ prefix_of q p.

(** Names asked for by a history of calls. *)
Definition asked {V} (cs : list (call V)) : list string :=
  flat_map (fun c => match c with
                     | UsePreset _ => []
                     | GetPrimitive n _ | GetContainer n _ | GetDataclass n _ _ _ => [n]
                     end) cs.

(** All keys at every level are free of dots. *)
Inductive dotfree {V} : cfg V -> Prop :=
| dotfree_leaf v : dotfree (Leaf v)
| dotfree_dict d : (forall k c, In (k, c) d -> str_has "." k = false /\ dotfree c) -> dotfree (Dict d).
