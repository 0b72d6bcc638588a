(** C90: what storing DMC data in two places is meant to achieve. *)
From Coq Require Import String Ascii List Bool Arith NArith Permutation.
From Verif Require Import Roll_Model Roll_Spec Rem_Model.
Import ListNotations.
Open Scope list_scope.

(** [ds] is a non-empty numeral and [k] is its value *)
Definition numeral_step (acc : option N) (c : ascii) : option N :=
  match acc with Some a => if ((48 <=? N_of_ascii c) && (N_of_ascii c <=? 57))%N then Some (a * 10 + (N_of_ascii c - 48))%N else None | None => None end.
Definition numeral (ds : string) (k : nat) : Prop := ds <> EmptyString /\ fold_left numeral_step (list_ascii_of_string ds) (Some 0%N) = Some (N.of_nat k).

Section Spec.
Variables (S : Type) (init : S) (iter : nat -> S -> S -> Prop) (rejected : S -> S -> Prop).
Local Notation world := (world S).
Definition everything (w : world) : dir S := loc w ++ rem w ++ rloc w ++ rrem w.
(** every whole file in the four directories is the checkpoint and metric file of an execution without failures *)
Definition all_genuine (w : world) : Prop := forall name d, In (name, Whole d) (everything w) -> genuine S init iter rejected d.
Definition begins (w : world) : Prop := proc w = None /\ all_genuine w.

Variables (prefix : string) (bs : nat) (h : handler).
(** a start whose downloads work *)
Inductive started : world -> world -> Prop :=
| Started w l1 l2 l3 l4 : ls S h (rem w) l1 -> ls S h (rrem w) l2 ->
    let loc' := download S prefix h Done l1 (loc w) in let rloc' := download S prefix h Done l2 (rloc w) in
    Permutation loc' l3 -> Permutation rloc' l4 ->
    started w {| loc := loc'; rem := rem w; rloc := rloc'; rrem := rrem w; proc := load S init (find_latest S prefix (l3 ++ l4)) |}.
(** A storage that works: transfers are neither killed nor fail.  Processes may still be killed between transfers, fail and
    roll back, and the machine may be lost at any time. *)
Inductive calm_event : world -> world -> Prop :=
| C_succeed w m s' : proc w = Some m -> iter (t m) (cur m) s' ->
    let r := run S bs Good [] m s' in calm_event w (with_proc S (stored_as S prefix w h Uploaded (snd r)) (Some (fst r)))
| C_outlier w m s1 : proc w = Some m -> rejected (cur m) s1 ->
    calm_event w (with_proc S w (Some {| t := t m; cur := s1; rows := rows m; ws := ws m; unsafe_step := unsafe_step m; safe_step := safe_step m |}))
| C_recover w m m' : proc w = Some m -> rollback S m = Some m' -> calm_event w (with_proc S w (Some m'))
| C_leave w m : proc w = Some m -> calm_event w (with_proc S (stored_as S prefix w h Uploaded (match data_at m (safe_step m) with Some d => [Good d] | None => [] end)) None)
| C_kill w m : proc w = Some m -> calm_event w (with_proc S w None)
| C_lose w : calm_event w {| loc := []; rem := rem w; rloc := []; rrem := rrem w; proc := None |}
| C_start w w' : proc w = None -> started w w' -> calm_event w w'.
(** at first nothing is stored on the machine or in the restore path, and the remote save path holds files of earlier runs with this block size *)
Definition calm_first (w : world) : Prop := proc w = None /\ loc w = [] /\ rloc w = [] /\ rrem w = [] /\
  forall name c, In (name, c) (rem w) -> exists d, c = Whole d /\ name = data_name prefix (d_step d) /\ genuine S init iter rejected d /\ d_step d mod bs = 0.
Inductive calm : world -> Prop :=
| Calm_first w : calm_first w -> calm w
| Calm_then w w' : calm w -> calm_event w w' -> calm w'.
End Spec.
