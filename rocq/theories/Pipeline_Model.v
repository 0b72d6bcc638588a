(** Model of /repo/src/jaqmc/estimator/base.py, class EstimatorPipeline (lines 286-426).
    Simplifications: an estimator is its four functions (evaluation of a batch on fixed
    parameters and data); walker, step, batched and final statistics are of arbitrary types;
    random keys are symbolic (a key is the root or one of the two halves of a split key);
    functions given as plain callables are already wrapped (lines 299-302). *)
From Coq Require Import String List Bool Arith.
From Verif Require Import Common.
Import ListNotations.
Open Scope string_scope.
Open Scope list_scope.

(** jax.random.split(key): two new keys. *)
Inductive key := Root (n : nat) | Split (k : key) (second : bool).

Section Pipeline.
Variables (W St B F S : Type).

Record estimator := {
  e_eval : list (string * W) -> S -> key -> list (string * W) * S;
  e_reduce : list (string * W) -> list (string * St);
  e_final : list (string * B) -> S -> list (string * F);
  e_final_state : S -> nat -> list (string * F)
}.

(** The object: the estimators in insertion order and the reduced keys of each (lines
    298-303). *)
Record pipeline := { estimators : list (string * estimator); reduce_keys : list (string * list string) }.
Definition mk_pipeline (es : list (string * estimator)) : pipeline := {| estimators := es; reduce_keys := [] |}.
(** __setitem__, lines 305-308 *)
Definition set_item (p : pipeline) (name : string) (e : estimator) : pipeline :=
  {| estimators := dict_set (estimators p) name e; reduce_keys := reduce_keys p |}.

(** evaluate, lines 327-362: the loop. *)
Record loop := { l_walker : list (string * W); l_step : list (string * St); l_state : list (string * S);
                 l_keys : list (string * list string); l_rng : key }.
Fixpoint eval_loop (es : list (string * estimator)) (l : loop) : res loop :=
  match es with
  | [] => Ok l
  | (name, e) :: rest =>
      let rngs := Split (l_rng l) false in
      let sub := Split (l_rng l) true in
      match dict_get (l_state l) name with
      | None => Raise KeyError
      | Some s =>
          let (parts, s') := e_eval e (l_walker l) s sub in
          let reduced := e_reduce e parts in
          eval_loop rest {| l_walker := dict_update (l_walker l) parts;
                            l_step := dict_update (l_step l) reduced;
                            l_state := dict_set (l_state l) name s';
                            l_keys := dict_set (l_keys l) name (map fst reduced);
                            l_rng := rngs |}
      end
  end.
Definition evaluate (p : pipeline) (state : list (string * S)) (rng : key)
  : res (list (string * St) * list (string * S) * pipeline) :=
  match eval_loop (estimators p) {| l_walker := []; l_step := []; l_state := state; l_keys := reduce_keys p; l_rng := rng |} with
  | Raise e => Raise e
  | Ok l => Ok (l_step l, l_state l, {| estimators := estimators p; reduce_keys := l_keys l |})
  end.

(** finalize_stats, lines 364-402.  The part of one estimator: its reduced keys that are
    in the batched statistics. *)
Definition own_part (keys : list string) (batched : list (string * B)) : list (string * B) :=
  flat_map (fun k => match dict_get batched k with Some v => [(k, v)] | None => [] end) keys.
Fixpoint final_loop (es : list (string * estimator)) (keys : list (string * list string))
  (batched : list (string * B)) (state : list (string * S)) (acc : list (string * F)) : res (list (string * F)) :=
  match es with
  | [] => Ok acc
  | (name, e) :: rest =>
      match dict_get keys name, dict_get state name with
      | Some ks, Some s => final_loop rest keys batched state (dict_update acc (e_final e (own_part ks batched) s))
      | _, _ => Raise KeyError
      end
  end.
Definition finalize_stats (p : pipeline) (batched : list (string * B)) (state : list (string * S)) : res (list (string * F)) :=
  match reduce_keys p with
  | [] => Raise RuntimeError
  | _ => final_loop (estimators p) (reduce_keys p) batched state []
  end.

(** digest, lines 404-426 *)
Fixpoint state_loop (es : list (string * estimator)) (state : list (string * S)) (n : nat) (acc : list (string * F))
  : res (list (string * F)) :=
  match es with
  | [] => Ok acc
  | (name, e) :: rest =>
      match dict_get state name with
      | None => Raise KeyError
      | Some s => state_loop rest state n (dict_update acc (e_final_state e s n))
      end
  end.
Definition digest (p : pipeline) (batched : list (string * B)) (state : list (string * S)) (n : nat) : res (list (string * F)) :=
  match (match batched with [] => Ok [] | _ => finalize_stats p batched state end) with
  | Raise e => Raise e
  | Ok r => state_loop (estimators p) state n r
  end.
End Pipeline.

Arguments e_eval {W St B F S}. Arguments e_reduce {W St B F S}. Arguments e_final {W St B F S}.
Arguments e_final_state {W St B F S}. Arguments estimators {W St B F S}. Arguments reduce_keys {W St B F S}.
Arguments mk_pipeline {W St B F S}. Arguments set_item {W St B F S}. Arguments evaluate {W St B F S}.
Arguments finalize_stats {W St B F S}. Arguments digest {W St B F S}. Arguments eval_loop {W St B F S}.
Arguments own_part {B}. Arguments final_loop {W St B F S}. Arguments state_loop {W St B F S}.
Arguments l_walker {W St S}. Arguments l_step {W St S}. Arguments l_state {W St S}. Arguments l_keys {W St S}. Arguments l_rng {W St S}.
