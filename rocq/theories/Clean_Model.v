(** Model of checkpoint clean-up: /repo/src/jaqmc_legacy/dmc/ckpt_metric_manager.py
    (_get_data_index 434-439, _clean_up 441-458, _get_to_remove_paths 460-487,
    clean_up_save_path 272-297).

    A path is any string type [P]; [index_of] is the regular expression match on the base name
    (None for a file that is not a data file).  Removal takes the file away (rm of a path that ls
    has just returned); the thread pool removes the same paths in some order.  [N] is positive
    (index % 0 raises). *)
From Coq Require Import List Arith Bool.
Import ListNotations.

Section Clean.
Variables (P : Type) (index_of : P -> option nat).

(** An element of the Python list that is bound to [all_paths]: first the argument's full paths;
    the loop body appends pairs of index and path. *)
Inductive item := Path (p : P) | Pair (i : nat) (p : P).
(** 475-480: [all_paths = []], then [for full_path in all_paths: ... all_paths.append(...)].  Python's for
    statement walks a list by position and sees elements appended meanwhile; [Loop i l l']: started
    at position [i] of list [l] it ends with [l'].  Applying basename to a pair would raise (no rule). *)
Inductive Loop : nat -> list item -> list item -> Prop :=
| Stop i l : length l <= i -> Loop i l l
| Skip i l p l' : nth_error l i = Some (Path p) -> index_of p = None -> Loop (S i) l l' -> Loop i l l'
| Add i l p k l' : nth_error l i = Some (Path p) -> index_of p = Some k -> Loop (S i) (l ++ [Pair k p]) l' -> Loop i l l'.
Definition pairs (l : list item) : list (nat * P) := flat_map (fun x => match x with Pair i p => [(i, p)] | Path _ => [] end) l.
(** 482: sorted(..., key, reverse=True) keeps the order of equal keys *)
Fixpoint insert (x : nat * P) (l : list (nat * P)) : list (nat * P) :=
  match l with [] => [x] | y :: l' => if Nat.ltb (fst y) (fst x) then x :: l else y :: insert x l' end.
Definition sort_desc (l : list (nat * P)) : list (nat * P) := fold_left (fun acc x => insert x acc) l [].
(** 483-487 *)
Definition select (keep N : nat) (l : list (nat * P)) : list P :=
  map snd (filter (fun x => negb (Nat.eqb (fst x mod N) 0)) (skipn keep (sort_desc l))).
(** 460-487 as written: the name [all_paths] is rebound to the empty list before it is read *)
Definition to_remove (all_paths : list P) (keep N : nat) (result : list P) : Prop :=
  exists l, Loop 0 [] l /\ result = select keep N (pairs l).
(** the same with the collected pairs under a name of their own *)
Definition to_remove_repaired (all_paths : list P) (keep N : nat) : list P :=
  select keep N (flat_map (fun p => match index_of p with Some k => [(k, p)] | None => [] end) all_paths).
(** 441-458 *)
Definition clean_up (directory : list P) (keep N : nat) (after : list P) : Prop :=
  exists r, to_remove directory keep N r /\ (forall p, In p after <-> In p directory /\ ~ In p r).
End Clean.
