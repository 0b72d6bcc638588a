(** Specification for C96: what the effects of a command are. *)
From Coq Require Import String List Bool Arith ZArith.
From Verif Require Import Common Config_Model Config_Spec Backup_Model Cli_Model.
Import ListNotations.
Open Scope string_scope.

(** When an effect may happen: logging, then the JAX flags, then waiting, then
    connecting, then the files of the workflow, then the run. *)
Definition phase (e : event) : nat :=
  match e with
  | ClearJaxHandlers | AddHandler _ _ | SetLevel _ => 0
  | JaxFlag _ _ => 1
  | Sleep _ => 2
  | Connect _ _ _ _ => 3
  | FileOp _ => 4
  | Start => 5
  end.
Definition in_phase (n : nat) (t : list event) : list event := filter (fun e => Nat.eqb (phase e) n) t.

(** The file tree after the effects. *)
Definition files_after (f : fs) (t : list event) : fs :=
  fold_left (fun f e => match e with FileOp o => do_op f o | _ => f end) t f.

(** The user wrote, in this source, a value in the section [name]. *)
Definition writes_in {V} (d : dict V) (name : string) : Prop :=
  exists p v, at_path (Dict d) (name :: p) = Some (Leaf v).
(** The user wrote, in this source, a value whose path (and whose ancestors) nobody
    asks for. *)
Definition asked_by_nobody {V} (d : dict V) (names : list string) : Prop :=
  exists p v, at_path (Dict d) p = Some (Leaf v) /\
    forall q, q <> [] -> prefix_of q p -> ~ In (dotted q) names.
