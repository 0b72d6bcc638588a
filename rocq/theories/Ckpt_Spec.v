(** Specification vocabulary for checkpoints: what a user means by "the newest
    checkpoint", independent of how the code finds it. *)
From Coq Require Import String Ascii List Bool Arith ZArith NArith Lia.
From Verif Require Import Common Ckpt_Model.
Import ListNotations.
Open Scope string_scope.

(** What can happen to checkpoints of one stage over its lifetime: a save that
    completed, or one during which the process died (before opening the file, or
    after [k] bytes reached the disk). *)
Inductive event :=
| Saved (step : N) (t : tree)
| Crashed (step : N) (at_byte : option nat).

Definition step_of (e : event) : N :=
  match e with Saved s _ => s | Crashed s _ => s end.

(** Effect of one event on the directory. *)
Definition apply_event (prefix : string) (d : list (string * file)) (e : event)
  : list (string * file) :=
  match e with
  | Saved s t => fst (save prefix d s t)
  | Crashed s k => save_crash prefix d s k
  end.
Definition run_events (prefix : string) (d : list (string * file)) (h : list event) :=
  fold_left (apply_event prefix) h d.

(** The last thing that touched the checkpoint of step [s] in the history (a crash
    before the file was opened touches nothing). *)
Fixpoint last_at (h : list event) (s : N) : option event :=
  match h with
  | [] => None
  | e :: h' =>
      match last_at h' s with
      | Some e' => Some e'
      | None =>
          match e with
          | Crashed _ None => None
          | _ => if (step_of e =? s)%N then Some e else None
          end
      end
  end.

(** The structure of a tree: nesting, keys and leaf types, not the data. *)
Fixpoint skeleton (t : tree) : tree :=
  match t with
  | Leaf l => Leaf (mkLeaf (lkind l) (mkPayload [] []))
  | Node cs => Node (map (fun kc => (fst kc, skeleton (snd kc))) cs)
  end.

(** A plain Python scalar is stored as a zero-dimensional array with one entry. *)
Definition scalar_ok (l : leaf) : Prop :=
  lkind l = KPy -> exists z, ldata l = mkPayload [] [z].

(** The archive entry names of a tree. *)
Definition names (t : tree) : list string := map (fun pl => key_path (fst pl)) (leaves_with_path t).

(** A tree that can be checkpointed faithfully: distinct entry names, none of them
    a parameter name of numpy's writer, and well-formed scalars. *)
Definition storable (t : tree) : Prop :=
  NoDup (names t) /\
  (forall n, In n (names t) -> n <> "step" /\ n <> "allow_pickle" /\ n <> "file") /\
  (forall path l, In (path, l) (leaves_with_path t) -> scalar_ok l).

(** Keys of every mapping are distinct and contain no slash. *)
Fixpoint clean_keys (t : tree) : Prop :=
  match t with
  | Leaf _ => True
  | Node cs =>
      NoDup (map fst cs) /\
      (fix go (cs : list (string * tree)) : Prop :=
         match cs with
         | [] => True
         | (k, c) :: cs' => str_has "/"%char k = false /\ clean_keys c /\ go cs'
         end) cs
  end.

(** Directory entries that the stage's restore would look at. *)
Definition no_ckpt (prefix : string) (d : list (string * file)) : Prop :=
  forall n f, In (n, f) d -> glob_ckpt prefix n = false.
