(** Model of the run loop of a work stage and of the files it maintains:
    src/jaqmc/workflow/stage/base.py (WorkStage.run), workflow/stage/vmc.py (loop,
    _has_nan), workflow/stage/evaluation.py (HDF5ReadWrite), writer/csv.py,
    writer/hdf5.py.

    A run is modelled by the sequence of its externally visible actions; what the
    actions do to checkpoint files, to the CSV log and to the HDF5 log is defined
    below, one interpretation per kind of file.
    Not modelled: several processes (only process 0 acts on files), sharding,
    logging.  The restore path is the save path (the default of
    workflow/base.py:69-72). *)
From Coq Require Import String Ascii List Bool Arith ZArith NArith QArith Lia.
From Verif Require Import Common Ckpt_Model.
Import ListNotations.
Open Scope string_scope.

(** ** Statistics *)
(** A number: a real part and an imaginary part, [None] standing for NaN. *)
Record num := mkNum { re : option Q; im : option Q }.
(** Statistics of one step: a dict from names to (flattened) arrays. *)
Definition stats := list (string * list num).

(** [str.split(",")] *)
Fixpoint split_comma_acc (acc : string) (s : string) : list string :=
  match s with
  | EmptyString => [acc]
  | String c s' => if Ascii.eqb c "," then acc :: split_comma_acc "" s'
                   else split_comma_acc (acc ++ String c "") s'
  end.
Definition split_comma (s : string) : list string := split_comma_acc "" s.

(** vmc.py: VMCWorkStageConfig.stop_on_nan is False, True or a comma separated list
    (the empty string is falsy). *)
Inductive stop_on_nan := SNo | SAll | SKeys (keys : string).

Definition monitored (c : stop_on_nan) (key : string) : bool :=
  match c with
  | SNo => false
  | SAll => true
  | SKeys ks => negb (String.eqb ks "") && existsb (String.eqb key) (split_comma ks)
  end.

(** workflow/stage/vmc.py:267-275 [_has_nan]: only the real part is examined. *)
Definition has_nan (c : stop_on_nan) (s : stats) : bool :=
  existsb (fun kv => monitored c (fst kv) &&
                     existsb (fun x => match re x with None => true | Some _ => false end) (snd kv)) s.

(** ** The stage *)
Record stage := mkStage {
  sname : string;                       (* stage name = checkpoint prefix *)
  iterations : N;
  save_time_interval : N;               (* seconds *)
  save_step_interval : N;
  nan_policy : stop_on_nan;
  rng : Type;                           (* random keys *)
  split : rng -> rng * rng;             (* jax.random.split *)
  compute : tree -> rng -> stats * tree;(* compute_step: sampling, estimators, optimiser *)
  burn_in : tree -> rng -> tree * rng;
  csv_header : stats -> string;         (* csv.py:96-103: "step" and the sorted scalar keys *)
  csv_row : N -> stats -> string        (* csv.py:106 *)
}.

(** Where the process may be killed within one step. *)
Inductive crashpoint :=
| CCompute                                        (* before the statistics are written *)
| CWrite (hd : bool) (frag : string)              (* while the CSV row is flushed: the header line, if
                                                     one is due, got out completely iff [hd]; then an
                                                     unterminated fragment (possibly empty) *)
| CAfterWrite
| CSave (at_byte : option nat)                    (* inside a checkpoint save (if this step saves) *)
| CAfterSave.

(** What the environment decides at one step. *)
Record tick := mkTick { now : N; exit_requested : bool; crash : option crashpoint }.

Inductive action :=
| Restored (n : N)                 (* ckpt.restore returned; the run starts at step n *)
| OpenWriters (n : N)
| Exec (step : N)                  (* compute_step of this step returned *)
| Write (step : N) (s : stats)
| WriteCut (step : N) (s : stats) (hd : bool) (frag : string)
| Save (step : N) (t : tree)
| SaveCut (step : N) (t : tree) (at_byte : option nat)
| CloseWriters.

Inductive outcome :=
| Done (t : tree)                  (* run returned this state *)
| Aborted                          (* SystemExit after a graceful stop *)
| Killed                           (* the process died *)
| Failed (e : exn).                (* run raised *)

(** base.py:154-157 [save], with the environment's choice of a crash inside it. *)
Definition do_save (step : N) (t : tree) (cr : option crashpoint) : list action * option outcome :=
  match cr with
  | Some (CSave k) => ([SaveCut step t k], Some Killed)
  | _ =>
    match make_archive step t with
    | Raise e => ([Save step t], Some (Failed e))
    | Ok _ => ([Save step t], match cr with Some _ => Some Killed | None => None end)
    end
  end.

(** base.py:170-182 with the generator of vmc.py:311-317 inlined.  [fuel] is the number
    of remaining steps, [last] is last_save_time. *)
Fixpoint loop (c : stage) (env : N -> tick) (fuel : nat) (step : N) (st : tree) (r : rng c) (last : N)
  : list action * outcome :=
  match fuel with
  | O => ([CloseWriters], Done st)
  | S fuel' =>
    let (r', sub) := split c r in                          (* vmc.py:312 *)
    let (s, st') := compute c st sub in                    (* vmc.py:313 *)
    let e := env step in
    match crash e with
    | Some CCompute => ([], Killed)
    | Some (CWrite hd frag) => ([Exec step; WriteCut step s hd frag], Killed)
    | Some CAfterWrite => ([Exec step; Write step s], Killed)
    | cr =>
      if has_nan (nan_policy c) s || exit_requested e then (* vmc.py:315-316, base.py:173-174 *)
        let (a, o) := do_save step st' cr in               (* base.py:183-186 *)
        ([Exec step; Write step s; CloseWriters] ++ a, match o with Some o => o | None => Aborted end)%list
      else if (save_step_interval c =? 0)%N then           (* base.py:179: % 0 *)
        ([Exec step; Write step s; CloseWriters], Failed ZeroDivisionError)
      else
        let is_last := (step =? iterations c - 1)%N in
        let time_ok := (last + save_time_interval c <? now e)%N in
        let step_ok := ((step + 1) mod save_step_interval c =? 0)%N in
        if is_last || (time_ok && step_ok) then            (* base.py:180-182 *)
          let (a, o) := do_save step st' cr in
          match o with
          | Some Killed => ([Exec step; Write step s] ++ a, Killed)%list
          | Some o => ([Exec step; Write step s] ++ a ++ [CloseWriters], o)%list
          | None => let (b, o) := loop c env fuel' (step + 1) st' r' (now e) in
                    ([Exec step; Write step s] ++ a ++ b, o)%list
          end
        else
          match cr with
          | Some _ => ([Exec step; Write step s], Killed)
          | None => let (b, o) := loop c env fuel' (step + 1) st' r' last in
                    ([Exec step; Write step s] ++ b, o)%list
          end
    end
  end.

(** base.py:122-190 [run], on the files found in the save directory. *)
Definition run (c : stage) (files : list (string * file)) (init : tree) (key : rng c) (t0 : N)
  (env : N -> tick) : list action * outcome :=
  match restore (sname c) (Dir files) init false with
  | Raise e => ([], Failed e)
  | Ok (n, st) =>
    if (iterations c <=? n)%N then ([Restored n], Done st)   (* base.py:146-147 *)
    else
      let (st1, key1) := if (n =? 0)%N then burn_in c st key else (st, key) in (* vmc.py:307-308 *)
      let (a, o) := loop c env (N.to_nat (iterations c - n)) n st1 key1 t0 in
      (Restored n :: OpenWriters n :: a, o)
  end.

(** ** Effect on the checkpoint directory *)
Definition ckpt_effect (prefix : string) (d : list (string * file)) (a : action) : list (string * file) :=
  match a with
  | Save s t => fst (save prefix d s t)
  | SaveCut s _ k => save_crash prefix d s k
  | _ => d
  end.
Definition ckpt_after (prefix : string) (d : list (string * file)) (l : list action) :=
  fold_left (ckpt_effect prefix) l d.

(** ** Effect on the CSV log (writer/csv.py) *)
(** A text file as its lines; only the last line may lack its terminator. *)
Record line := mkLine { body : string; ended : bool }.

(** Appending complete lines and a fragment to a text file. *)
Definition append_line (f : list line) (l : line) : list line :=
  match rev f with
  | mkLine b false :: before => (rev before ++ [mkLine (b ++ body l) (ended l)])%list
  | _ => (f ++ [l])%list
  end.
Definition append_lines (f : list line) (ls : list line) : list line := fold_left append_line ls f.

(** csv.py:61-73 [_truncate_to]; an absent or empty file is []. *)
Definition csv_truncate (f : list line) (initial_step : nat) : list line :=
  match f with
  | [] => []
  | _ => if Nat.leb (length f - 1) initial_step then f else firstn (1 + initial_step) f
  end.

(** The writer: the file and [_needs_header]. *)
Record csvw := mkCsvw { cfile : list line; needs_header : bool }.

(** csv.py:75-111: the lines one call of [write] appends. *)
Definition csv_pending (c : stage) (w : csvw) (step : N) (s : stats) : list line :=
  (if needs_header w then [mkLine (csv_header c s) true] else []) ++ [mkLine (csv_row c step s) true].

Definition csv_effect (c : stage) (w : csvw) (a : action) : csvw :=
  match a with
  | OpenWriters n =>                                    (* csv.py:43-55 *)
      let f := csv_truncate (cfile w) (N.to_nat n) in
      mkCsvw f (match f with [] => true | _ => false end)
  | Write step s => mkCsvw (append_lines (cfile w) (csv_pending c w step s)) false
  | WriteCut step s hd frag =>
      mkCsvw (append_lines (cfile w)
               ((if needs_header w && hd then [mkLine (csv_header c s) true] else []) ++
                (if String.eqb frag "" then [] else [mkLine frag false]))) false
  | _ => w
  end.
Definition csv_after (c : stage) (w : csvw) (l : list action) := fold_left (csv_effect c) l w.

(** ** Effect on the HDF5 log (writer/hdf5.py) *)
Definition dsets := list (string * list (list num)).

(** hdf5.py:17-25 [h5_append] of one entry *)
Definition h5_append (d : dsets) (key : string) (v : list num) : dsets :=
  match dict_get d key with
  | Some vs => dict_set d key (vs ++ [v])%list
  | None => dict_set d key [v]
  end.
(** hdf5.py:62-69 [write] (all statistics are JAX arrays) *)
Definition h5_write (d : dsets) (s : stats) : dsets :=
  fold_left (fun d kv => h5_append d (fst kv) (snd kv)) s d.
(** hdf5.py:55-60 [_truncate_to] *)
Definition h5_truncate (n : nat) (d : dsets) : dsets :=
  map (fun kv => (fst kv, if Nat.ltb n (length (snd kv)) then firstn n (snd kv) else snd kv)) d.

(** The library keeps changes in memory until the file is closed (hdf5.py never
    flushes): the file on disk, and the open handle's view. *)
Record h5w := mkH5 { hdisk : dsets; hmem : option dsets }.
Definition h5_effect (w : h5w) (a : action) : h5w :=
  match a with
  | OpenWriters n => mkH5 (hdisk w) (Some (h5_truncate (N.to_nat n) (hdisk w)))
  | Write _ s => mkH5 (hdisk w) (match hmem w with Some m => Some (h5_write m s) | None => None end)
  | WriteCut _ s _ _ => w
  | CloseWriters => match hmem w with Some m => mkH5 m None | None => w end
  | _ => w
  end.
(** A killed process loses its view: in this model, everything since the open. *)
Definition h5_after (w : h5w) (l : list action) : h5w :=
  mkH5 (hdisk (fold_left h5_effect l w)) None.

(** ** Effect on the evaluation statistics file (evaluation.py:44-88) *)
(** Opened without truncation (evaluation.py:51-58), appended at every step
    (evaluation.py:262), closed when the stage ends.  Here every append is taken to
    reach the disk. *)
Definition eval_effect (d : dsets) (a : action) : dsets :=
  match a with Write _ s => h5_write d s | _ => d end.
Definition eval_after (d : dsets) (l : list action) := fold_left eval_effect l d.

(** ** Histories of runs *)
Record attempt (c : stage) := mkAttempt { akey : rng c; astart : N; aenv : N -> tick }.
Arguments akey {c}. Arguments astart {c}. Arguments aenv {c}.

(** Launch the stage again and again on the same directory with the same initial state. *)
Fixpoint history (c : stage) (files : list (string * file)) (init : tree) (h : list (attempt c))
  : list (list action * outcome) :=
  match h with
  | [] => []
  | a :: h' =>
      let r := run c files init (akey a) (astart a) (aenv a) in
      r :: history c (ckpt_after (sname c) files (fst r)) init h'
  end.
