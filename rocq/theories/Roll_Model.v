(** Model of the DMC driver with checkpoints and rollback:
    /repo/src/jaqmc_legacy/dmc/ckpt_metric_manager.py (CkptMetricManager),
    /repo/src/jaqmc_legacy/dmc/metric_manager.py (MetricManager),
    /repo/src/jaqmc_legacy/dmc/ckpt_handler.py, and the loop of
    /repo/src/jaqmc_legacy/dmc/dmc.py 280-342 with recovery_wrapper (907-949).

    A data tarball holds one checkpoint (step and state) and one metric file.  A metric row is
    its step together with the state it was computed from (the numbers in the row are functions
    of that state and of the iteration).  Workspace tarballs are a map from step to data; the save
    and restore directories are lists of data files.  A copy into the save path interrupted by
    a kill leaves a torn file under the final name (shutil.copy writes in place).  Local paths
    only; one host; the pickled state is a copy. *)
From Coq Require Import List Arith Bool.
Import ListNotations.

Section Roll.
Variable S : Type.
Record data := { d_step : nat; d_state : S; d_rows : list (nat * S) }.
Inductive file := Good (d : data) | Torn (step : nat).
Definition index (f : file) : nat := match f with Good d => d_step d | Torn k => k end.
(** the manager and the driver of one running process *)
Record mgr := { t : nat; cur : S; rows : list (nat * S); ws : nat -> option data; unsafe_step : option nat; safe_step : option nat }.
Record world := { saved : list file; restore : list file; proc : option mgr }.

(** ckpt_metric_manager.py 352-356 *)
Definition data_at (m : mgr) (k : option nat) : option data := match k with None => None | Some i => ws m i end.
(** 370: copy into the save path, overwriting a file of the same name *)
Definition put_file (f : file) (dir : list file) : list file := filter (fun g => negb (Nat.eqb (index g) (index f))) dir ++ [f].
Definition set_ws (w : nat -> option data) (k : nat) (v : option data) : nat -> option data := fun j => if Nat.eqb j k then v else w j.
(** 189-201 and 294-331: write the row; at a block boundary save unsafe data and promote the
    previous unsafe data.  [up] decides what the copy into the save path leaves behind. *)
Definition run (bs : nat) (up : data -> file) (dir : list file) (m : mgr) (s' : S) : mgr * list file :=
  let rows' := rows m ++ [(t m, s')] in
  if Nat.eqb (t m mod bs) 0 then
    let old_unsafe := unsafe_step m in let old_safe := safe_step m in
    let should := match data_at m old_unsafe with Some _ => true | None => false end in
    let ws1 := set_ws (ws m) (t m) (Some {| d_step := t m; d_state := s'; d_rows := rows' |}) in
    if should then
      let dir' := match (match old_unsafe with Some i => ws1 i | None => None end) with Some d => put_file (up d) dir | None => dir end in
      let ws2 := match old_safe with Some k => set_ws ws1 k None | None => ws1 end in
      ({| t := t m + 1; cur := s'; rows := rows'; ws := ws2; unsafe_step := Some (t m); safe_step := old_unsafe |}, dir')
    else ({| t := t m + 1; cur := s'; rows := rows'; ws := ws1; unsafe_step := Some (t m); safe_step := old_safe |}, dir)
  else ({| t := t m + 1; cur := s'; rows := rows'; ws := ws m; unsafe_step := unsafe_step m; safe_step := safe_step m |}, dir).
(** 203-223 with dmc.py 936-938: roll back to the safe data, [None] = NoSafeDataAvailable *)
Definition rollback (m : mgr) : option mgr :=
  match data_at m (safe_step m) with
  | None => None
  | Some d => Some {| t := d_step d + 1; cur := d_state d; rows := d_rows d;
                      ws := match unsafe_step m with Some k => set_ws (ws m) k None | None => ws m end; unsafe_step := None; safe_step := safe_step m |}
  end.
(** 406-432: the file with the largest index, the first one among equals *)
Fixpoint find_latest (dir : list file) (best : option file) : option file :=
  match dir with
  | [] => best
  | f :: dir' => find_latest dir' (match best with Some g => if Nat.ltb (index g) (index f) then Some f else best | None => Some f end)
  end.
(** 115-134, 225-247 and dmc.py 188-215: a new process; [None] = the tarball cannot be read *)
Definition start (init : S) (dir : list file) : option mgr :=
  match find_latest dir None with
  | None => Some {| t := 0; cur := init; rows := []; ws := fun _ => None; unsafe_step := None; safe_step := None |}
  | Some (Good d) => Some {| t := d_step d + 1; cur := d_state d; rows := d_rows d; ws := fun _ => None; unsafe_step := None; safe_step := None |}
  | Some (Torn _) => None
  end.
(** 144-148: leaving the context uploads the safe data again *)
Definition leave (dir : list file) (m : mgr) : list file := match data_at m (safe_step m) with Some d => put_file (Good d) dir | None => dir end.

Variables (bs : nat) (init : S) (iter : nat -> S -> S -> Prop) (rejected : S -> S -> Prop).
(** what can happen to the process and its directories *)
Inductive event : world -> world -> Prop :=
| Succeed w m s' : proc w = Some m -> iter (t m) (cur m) s' ->
    event w {| saved := snd (run bs Good (saved w) m s'); restore := restore w; proc := Some (fst (run bs Good (saved w) m s')) |}
| Outlier w m s1 : proc w = Some m -> rejected (cur m) s1 -> (* dmc.py 463-472, 306-309 *)
    event w {| saved := saved w; restore := restore w; proc := Some {| t := t m; cur := s1; rows := rows m; ws := ws m; unsafe_step := unsafe_step m; safe_step := safe_step m |} |}
| Recover w m m' : proc w = Some m -> rollback m = Some m' -> event w {| saved := saved w; restore := restore w; proc := Some m' |}
| Abort w m : proc w = Some m -> event w {| saved := leave (saved w) m; restore := restore w; proc := None |} (* finished, too many failures, or no safe data *)
| Kill w m : proc w = Some m -> event w {| saved := saved w; restore := restore w; proc := None |}
| KillInCopy w m s' : proc w = Some m -> iter (t m) (cur m) s' -> (* killed while copying the safe data *)
    event w {| saved := snd (run bs (fun d => Torn (d_step d)) (saved w) m s'); restore := restore w; proc := None |}
| Start w m : proc w = None -> start init (saved w ++ restore w) = Some m -> event w {| saved := saved w; restore := restore w; proc := Some m |}.
End Roll.
Arguments Good {S}. Arguments Torn {S}. Arguments d_step {S}. Arguments d_state {S}. Arguments d_rows {S}.
Arguments t {S}. Arguments cur {S}. Arguments rows {S}. Arguments ws {S}. Arguments unsafe_step {S}. Arguments safe_step {S}.
Arguments saved {S}. Arguments restore {S}. Arguments proc {S}. Arguments index {S}. Arguments data_at {S}.
