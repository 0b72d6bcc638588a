(** Specification vocabulary for runs of a stage. *)
From Coq Require Import String Ascii List Bool Arith ZArith NArith QArith Lia.
From Verif Require Import Common Ckpt_Model Ckpt_Spec Stage_Model.
Import ListNotations.
Open Scope string_scope.

(** A state that checkpoints can hold and that has the structure of [init]. *)
Definition fine (init t : tree) : Prop := storable t /\ skeleton init = skeleton t.

(** A stage whose steps keep the structure of the state, configured with a positive
    save interval and at most a million steps. *)
Record well_formed (c : stage) (init : tree) : Prop := {
  wf_init : fine init init;
  wf_compute : forall t r, fine init t -> fine init (snd (compute c t r));
  wf_burn : forall t r, fine init t -> fine init (fst (burn_in c t r));
  wf_interval : (0 < save_step_interval c)%N;
  wf_iterations : (iterations c <= 1000000)%N
}.

(** Attempts that are never killed (they may still be asked to stop at any step). *)
Definition graceful {c} (a : attempt c) : Prop := forall step, crash (aenv a step) = None.

(** Attempts that may be killed anywhere, except that a checkpoint file cut off after
    one, two or three bytes does not occur. *)
Definition killable {c} (a : attempt c) : Prop :=
  forall step k, crash (aenv a step) = Some (CSave (Some k)) -> (k = 0 \/ 4 <= k)%nat.

(** Attempts that are not killed in the middle of writing the CSV header. *)
Definition header_whole {c} (a : attempt c) : Prop :=
  forall step frag, crash (aenv a step) = Some (CWrite false frag) -> frag = "".

(** All actions of a history, in order. *)
Definition all_actions (h : list (list action * outcome)) : list action := concat (map fst h).

(** The steps executed, in order. *)
Definition executed (l : list action) : list N :=
  flat_map (fun a => match a with Exec s => [s] | _ => [] end) l.

(** 0, 1, ..., m-1 *)
Definition steps_upto (m : N) : list N := map N.of_nat (seq 0 (N.to_nat m)).

(** The most recent completed checkpoint save. *)
Definition newest_save (l : list action) : option (N * tree) :=
  fold_left (fun r a => match a with Save s t => Some (s, t) | _ => r end) l None.

(** The statistics most recently written for a step. *)
Definition last_written (l : list action) (k : N) : option stats :=
  fold_left (fun r a => match a with
                        | Write s x => if (s =? k)%N then Some x else r
                        | _ => r end) l None.

(** The step at which the next run resumes. *)
Definition next_step (l : list action) : N :=
  match newest_save l with Some (s, _) => (s + 1)%N | None => 0%N end.

(** A CSV file with a header and one row per entry. *)
Fixpoint csv_rows (c : stage) (k : N) (ss : list stats) : list line :=
  match ss with
  | [] => []
  | s :: ss' => mkLine (csv_row c k s) true :: csv_rows c (k + 1) ss'
  end.
Definition csv_log (c : stage) (hdr : string) (ss : list stats) : list line :=
  mkLine hdr true :: csv_rows c 0 ss.

(** A killed run that does not spoil the log: its writers were closed before the kill, or
    it had not completed a checkpoint. *)
Definition harmless (r : list action * outcome) : Prop :=
  snd r = Killed -> In CloseWriters (fst r) \/ (forall s t, ~ In (Save s t) (fst r)).
