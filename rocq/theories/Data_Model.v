(** Model of /repo/src/jaqmc/data.py: Data.subset (37-59), Data.merge (61-82),
    BatchedData.check (109-140), batch_size (142-157), vmap_axis (159-179),
    fully_batched_data (233-257). *)
From Coq Require Import String List Bool Arith.
From Verif Require Import Common.
Import ListNotations.
Open Scope string_scope.

Section D.
Variable V : Type.

(** An instance: its fields in declaration order with their values. *)
Definition data := list (string * V).
Definition field_names (d : data) : list string := map fst d.
Definition known (d : data) (k : string) : bool := existsb (String.eqb k) (field_names d).

(** subset, lines 37-59: a dict comprehension over the requested names. *)
Definition subset (d : data) (fields : list string) : res (list (string * V)) :=
  if forallb (known d) fields
  then Ok (fold_left (fun acc k => match dict_get d k with Some v => dict_set acc k v | None => acc end) fields [])
  else Raise KeyError.

(** dataclasses.replace(self, **values): a new instance, same declared fields. *)
Definition replace (d : data) (values : list (string * V)) : data :=
  map (fun kv => (fst kv, match dict_get values (fst kv) with Some v => v | None => snd kv end)) d.

(** merge, lines 61-82. *)
Definition merge (d : data) (values : list (string * V)) : res data :=
  if forallb (fun kv => known d (fst kv)) values then Ok (replace d values) else Raise KeyError.
End D.

(** A field value as far as batching goes: the leading sizes of its array leaves
    (a field is a pytree of arrays, at least one leaf). *)
Definition leaves := list nat.

(** BatchedData.batch_size, lines 142-157 (concrete arrays). *)
Definition batch_size (d : data leaves) (batched : list string) : res nat :=
  match batched with
  | [] => Ok 0
  | k :: _ => match dict_get d k with
              | Some (n :: _) => Ok n
              | Some [] => Raise IndexError
              | None => Raise AttributeError
              end
  end.

(** BatchedData.check, lines 109-140, all leaves concrete arrays.  On unknown names the
    code means to raise KeyError, but builds the message with [set - list] (line 126),
    which is a TypeError. *)
Definition check (d : data leaves) (batched : list string) : res unit :=
  if forallb (known leaves d) batched then
    bind (batch_size d batched) (fun n =>
    if forallb (fun k => match dict_get d k with
                         | Some ls => forallb (Nat.eqb n) ls
                         | None => true end) batched
    then Ok tt else Raise ValueError)
  else Raise TypeError.

(** vmap_axis, lines 159-179. *)
Definition vmap_axis {V} (d : data V) (batched : list string) : data (option nat) :=
  map (fun kv => (fst kv, if existsb (String.eqb (fst kv)) batched then Some 0 else None)) d.

(** fully_batched_data, lines 233-257: only the fields not listed get the new axis. *)
Definition fully_batched {V} (broadcast : nat -> V -> V) (n : nat) (d : data V) (batched : list string)
  : res (data V) :=
  if Nat.eqb n 0 then Raise ValueError
  else Ok (map (fun kv => (fst kv, if existsb (String.eqb (fst kv)) batched then snd kv
                                   else broadcast n (snd kv))) d).
