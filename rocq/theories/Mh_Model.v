(** Model of the multi-process parts of jaqmc: /repo/src/jaqmc/workflow/stage/base.py 112-190 (run),
    workflow/stage/vmc.py 285-330 and stage/evaluation.py 279-320 (loops), workflow/base.py 189-229
    (init_batched_data), utils/parallel_jax.py 20-40 and 119-186, workflow/stage/sampling.py 43-61,
    estimator/histogram.py 82-134, writer/base.py 95-147, workflow/vmc.py 92-136 (random keys). *)
From Coq Require Import List Arith ZArith Bool.
From Verif Require Import Mh_Spec.
Import ListNotations.

(** ** The run loop of one process *)
Record config := { iterations : nat; burn_steps : nat; save_time_interval : Z; save_step_interval : nat }.
(** What a process sees on its own: time.time() at line 163 and after every step (line 176), its
    exit flag after every step (line 173), and whether jax.process_index() is 0. *)
Record process := { t0 : Z; now : nat -> Z; asked : nat -> bool; is_master : bool }.
(** Programs all devices take part in: burn-in, a step, process_allgather of the walkers. *)
Inductive collective := BurnIn | Compute (step : nat) | Gather (step : nat).
Inductive ending := Finished | Aborted (step : nat).
Record outcome := { ops : list collective; files : list nat; ended : ending }.

(** base.py 155-158 save: everyone gathers, the master writes the file *)
Definition saved (p : process) (step : nat) (rest : outcome) : outcome :=
  {| ops := Gather step :: ops rest; files := (if is_master p then [step] else []) ++ files rest; ended := ended rest |}.
(** base.py 169-188 with the generator of vmc.py 319-330; [nan step] is _has_nan of the replicated
    statistics (the same on all processes); [left] counts the steps that remain. A
    save_step_interval of 0 (ZeroDivisionError) is left out. *)
Fixpoint loop (c : config) (nan : nat -> bool) (p : process) (left step : nat) (last_save : Z) : outcome :=
  match left with
  | O => {| ops := []; files := []; ended := Finished |}
  | S left' =>
      let rest :=
        if nan step || asked p step then saved p step {| ops := []; files := []; ended := Aborted step |}
        else
          let is_last := Nat.eqb step (iterations c - 1) in
          let time_ok := Z.ltb (save_time_interval c) (now p step - last_save) in
          let step_ok := Nat.eqb ((step + 1) mod save_step_interval c) 0 in
          if is_last || (time_ok && step_ok) then saved p step (loop c nan p left' (step + 1) (now p step))
          else loop c nan p left' (step + 1) last_save
      in {| ops := Compute step :: ops rest; files := files rest; ended := ended rest |}
  end.
(** base.py 140-148 and the burn-in of vmc.py 315-316 *)
Definition run (c : config) (nan : nat -> bool) (initial : nat) (p : process) : outcome :=
  if iterations c <=? initial then {| ops := []; files := []; ended := Finished |}
  else let r := loop c nan p (iterations c - initial) initial (t0 p) in
    if (initial =? 0) && (0 <? burn_steps c) then {| ops := BurnIn :: ops r; files := files r; ended := ended r |} else r.

(** ** The walkers: workflow/base.py 210-229. None is an exception. The devices of process p have
    the numbers p*devices .. p*devices + devices - 1 of the one-dimensional mesh (parallel_jax.py 25);
    make_array_from_process_local_data joins the parts of the processes in that order and needs
    equal shards. *)
Definition init_batched_data {K W : Type} (fold_in : K -> nat -> K) (data_init : nat -> K -> list W) (processes devices batch_size : nat) (key : K) : option (list W) :=
  if negb (batch_size mod processes =? 0) then None
  else
    let local_batch := batch_size / processes in
    if negb (local_batch mod devices =? 0) then None
    else Some (joined processes (fun p => data_init local_batch (fold_in key p))).
(** jax.device_put to a sharding over [n] devices (base.py 146, checkpoint.py from_npz): the shard of every device *)
Definition device_put {W : Type} (n : nat) (g : list W) : option (nat -> list W) :=
  if length g mod n =? 0 then Some (piece n g) else None.
(** parallel_jax.py 135-167 process_allgather (tiled) *)
Definition allgather {W : Type} (n : nat) (shards : nat -> list W) : list W := joined n shards.
(** parallel_jax.py 170-186: the first shard of process [p] *)
Definition addressable {W : Type} (devices : nat) (shards : nat -> list W) (p : nat) : list W := shards (p * devices).

(** ** Density estimators: histogram.py 82-134, one row of counts per device (bin -> count; the Kahan
    compensation is modelled in Hist_Model.v). *)
Definition row := nat -> Z.
Definition hist_init (n : nat) : list row := repeat (fun _ => 0%Z) n.
(** evaluate_batch_walkers on device [d]: the counts are broadcast over the rows the device holds *)
Definition hist_step (rows_of : nat -> list row) (counts : nat -> row) (d : nat) : list row :=
  map (fun r b => (r b + counts d b)%Z) (rows_of d).
(** finalize_state *)
Definition hist_total (rows : list row) (b : nat) : Z := fold_right (fun r s => (r b + s)%Z) 0%Z rows.
(** sampling.py 59-60 and np.savez: only batched_data is gathered; estimator_state stays sharded over
    the processes, and numpy cannot read an array with shards on other processes *)
Definition save_state {W : Type} (processes n : nat) (walkers : nat -> list W) (rows : nat -> list row) : option (list W * list row) :=
  if processes =? 1 then Some (allgather n walkers, allgather n rows) else None.
(** The same without a density estimator. *)
Definition save_walkers {W : Type} (n : nat) (walkers : nat -> list W) : list W := allgather n walkers.
(** [steps] evaluation steps on [n] devices *)
Fixpoint hist_run (n : nat) (counts : nat -> nat -> row) (from steps : nat) (rows_of : nat -> list row) : nat -> list row :=
  match steps with O => rows_of | S k => hist_run n counts (S from) k (hist_step rows_of (counts from)) end.

(** ** Writers: writer/base.py 95-147 *)
Inductive wevent := WOpen (i : nat) | WClose (i : nat) | WWrite (i step : nat).
(** ExitStack of lines 126-131: opened in order; a failing open closes the earlier ones in reverse
    order. [opens i] and [writes i step] say which calls succeed. *)
Definition closes (k : nat) : list wevent := map WClose (rev (seq 0 k)).
(** Writers.write: the first failure ends the loop with an exception *)
Fixpoint write_all (writes : nat -> nat -> bool) (step i k : nat) : list wevent * bool :=
  match k with
  | O => ([], true)
  | S k' => if writes i step then let (l, ok) := write_all writes step (S i) k' in (WWrite i step :: l, ok) else ([WWrite i step], false)
  end.
Fixpoint write_steps (master : bool) (writes : nat -> nat -> bool) (k : nat) (steps : list nat) : list wevent :=
  match steps with
  | [] => []
  | s :: rest => if master then let (l, ok) := write_all writes s 0 k in l ++ (if ok then write_steps master writes k rest else []) else write_steps master writes k rest
  end.
Fixpoint open_from (opens : nat -> bool) (i k : nat) : nat * bool := (* number opened, all succeeded *)
  match k with O => (i, true) | S k' => if opens i then open_from opens (S i) k' else (i, false) end.
(** with writers.open(..): the given steps are written *)
Definition with_writers (master : bool) (opens : nat -> bool) (writes : nat -> nat -> bool) (k : nat) (steps : list nat) : list wevent :=
  if master then
    let (n, ok) := open_from opens 0 k in
    map WOpen (seq 0 n) ++ (if ok then write_steps true writes k steps else [WOpen n]) ++ closes n
  else write_steps false writes k steps.

(** ** Random keys: vmc.py 99-136, base.py 149-152, vmc.py 319-320 and sampling.py 278-288.
    jax.random.split(k, n)[i] is [Split k i] for every n (as with the partitionable threefry), fold_in is [Fold]. *)
Inductive key := Seed (n : Z) | Split (k : key) (i : nat) | Fold (k : key) (i : nat).
Fixpoint chain (k : key) (t : nat) : key := match t with O => k | S t' => Split (chain k t') 0 end.
(** key of the walkers process [p] draws *)
Definition data_key (seed : Z) (p : nat) : key := Fold (Split (Seed seed) 1) p.
(** run key of stage [j]: the stages split (rngs, state_rngs, run_rngs) one after the other *)
Definition stage_key (seed : Z) (j : nat) : key := Split (chain (Split (Seed seed) 0) j) 2.
(** the [t]-th key a device uses in a stage, burn-in first *)
Definition device_key (seed : Z) (j d t : nat) : key := Split (chain (Split (stage_key seed j) d) t) 1.
(** key of [step] in a run that starts at [initial] with [burn] burn-in iterations (none after a resume) *)
Definition step_key (seed : Z) (j burn initial d step : nat) : key := device_key seed j d ((if initial =? 0 then burn else 0) + (step - initial)).
