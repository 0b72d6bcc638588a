(** Model of the DMC data files in local and remote storage:
    /repo/src/jaqmc_legacy/dmc/storage_handler.py (the three handlers),
    /repo/src/jaqmc_legacy/dmc/data_path.py (initialize_data_paths) and the parts of
    /repo/src/jaqmc_legacy/dmc/ckpt_metric_manager.py that name, upload, download and find data files
    (the workspace, block boundaries and rollback are those of Roll_Model).

    A directory is a list of named files; a file is a whole tarball or a part of one.  Assumed of the environment:
    [shutil.copy] writes in place, so a kill leaves a part under the final name; [hdfs dfs -put -f] and
    [-get] write to name._COPYING_ and rename at the end; [-get] without -f refuses to overwrite; a
    failing hdfs command only makes [call_helper] return False.  Directory listings come in any order.
    The '__workspace' directory inside the save path is not listed (its name never matches).  One host. *)
From Coq Require Import String Ascii List Bool Arith NArith Permutation.
From Verif Require Import Ckpt_Model Roll_Model.
Import ListNotations.
Open Scope list_scope.

(** ** File names *)
(** ckpt_metric_manager.py 99: data_file_prefix + '_{step:06d}.tgz' *)
Definition data_name (prefix : string) (step : nat) : string := (prefix ++ "_" ++ fmt06 (N.of_nat step) ++ ".tgz")%string.
Definition is_digit (c : ascii) : bool := (48 <=? N_of_ascii c)%N && (N_of_ascii c <=? 57)%N.
Definition digit (c : ascii) : N := (N_of_ascii c - 48)%N.
Definition newline : ascii := ascii_of_N 10.
(** 100 and 434-439: '([0-9]+).tgz', the digits greedy with backtracking, '.' any character but a newline;
    re.match does not look at what follows *)
Fixpoint digits_tgz (acc : N) (seen : bool) (s : string) : option N :=
  match s with
  | EmptyString => None
  | String c r =>
      let stop := if seen && negb (Ascii.eqb c newline) && String.prefix "tgz" r then Some acc else None in
      if is_digit c then match digits_tgz (acc * 10 + digit c) true r with Some k => Some k | None => stop end else stop
  end.
Fixpoint after (head s : string) : option string :=
  match head, s with
  | EmptyString, _ => Some s
  | String a h, String b r => if Ascii.eqb a b then after h r else None
  | _, EmptyString => None
  end.
(** 434-439, for a prefix without characters special to regular expressions *)
Definition data_index (prefix name : string) : option nat :=
  match after (prefix ++ "_") name with Some r => option_map N.to_nat (digits_tgz 0 false r) | None => None end.
(** hdfs: the temporary name of a transfer *)
Definition copying (name : string) : string := (name ++ "._COPYING_")%string.

Section Storage.
Variable S : Type.
Inductive content := Whole (d : data S) | Part.
Definition dir := list (string * content).
Definition remove (name : string) (l : dir) : dir := filter (fun e => negb (String.eqb (fst e) name)) l.
Definition put_at (name : string) (c : content) (l : dir) : dir := remove name l ++ [(name, c)].
Definition has (name : string) (l : dir) : bool := existsb (fun e => String.eqb (fst e) name) l.

(** ** storage_handler.py: Dummy 88-128, Local 130-181, Hdfs 183-260 *)
Inductive handler := Dummy | Local | Hdfs.
Inductive outcome := Done | Failed | Killed.
(** put 93, 133-134 (cp 168-169), 205-206 *)
Definition put (h : handler) (o : outcome) (name : string) (c : content) (l : dir) : dir :=
  match h, o with
  | Dummy, _ => l
  | Local, Done => put_at name c l
  | Local, Failed => l
  | Local, Killed => put_at name Part l
  | Hdfs, Done => put_at name c (remove (copying name) l)
  | Hdfs, Failed => l
  | Hdfs, Killed => put_at (copying name) Part l
  end.
(** get 97, 137-138, 208-213: the destination is the local directory, so the test for an existing file is false *)
Definition get (h : handler) (o : outcome) (name : string) (c : content) (l : dir) : dir :=
  match h, o with
  | Dummy, _ => l
  | Local, Done => put_at name c l
  | Local, Failed => l
  | Local, Killed => put_at name Part l
  | Hdfs, Done => if has name l then l else put_at name c (remove (copying name) l)
  | Hdfs, Failed => l
  | Hdfs, Killed => put_at (copying name) Part l
  end.
(** ls 104-105, 149-155, 218-245: [l'] is the listing of directory [l] *)
Definition ls (h : handler) (l l' : dir) : Prop := match h with Dummy => l' = [] | _ => Permutation l l' end.

(** ** ckpt_metric_manager.py *)
Variable prefix : string.
(** 407-432: strictly larger index wins, starting from -1 *)
Definition find_latest (l : dir) : option (string * content * nat) :=
  fold_left (fun best e => match data_index prefix (fst e) with
                           | None => best
                           | Some k => match best with
                                       | Some (_, _, b) => if Nat.ltb b k then Some (e, k) else best
                                       | None => Some (e, k)
                                       end
                           end) l None.
(** 397-405 *)
Definition download (h : handler) (o : outcome) (listing local : dir) : dir :=
  match find_latest listing with None => local | Some (name, c, _) => get h o name c local end.
(** 225-247 with dmc.py 188-215: [None] = raises.  The tarball holds ckpt_{d_step}.npz and the step comes from the name. *)
Definition load (init : S) (found : option (string * content * nat)) : option (mgr S) :=
  match found with
  | None => Some {| t := 0; cur := init; rows := []; ws := fun _ => None; unsafe_step := None; safe_step := None |}
  | Some (_, Whole d, k) => if Nat.eqb (d_step d) k then Some {| t := k + 1; cur := d_state d; rows := d_rows d; ws := fun _ => None; unsafe_step := None; safe_step := None |} else None
  | Some (_, Part, _) => None
  end.
(** 358-372: local save path first, then remote *)
Inductive transfer := Uploaded | Refused | KilledLocal | KilledRemote.
Definition upload (h : handler) (how : transfer) (d : data S) (loc rem : dir) : dir * dir :=
  let name := data_name prefix (d_step d) in
  match how with
  | Uploaded => (put Local Done name (Whole d) loc, put h Done name (Whole d) rem)
  | Refused => (put Local Done name (Whole d) loc, put h Failed name (Whole d) rem)
  | KilledLocal => (put Local Killed name (Whole d) loc, rem)
  | KilledRemote => (put Local Done name (Whole d) loc, put h Killed name (Whole d) rem)
  end.
(** does the process go on?  hdfs failures are not noticed; shutil.copy raises *)
Definition goes_on (h : handler) (how : transfer) : bool :=
  match how with Uploaded => true | Refused => match h with Local => false | _ => true end | _ => false end.

(** ** What can happen.  [loc], [rem]: the save path; [rloc], [rrem]: the restore path *)
Record world := { loc : dir; rem : dir; rloc : dir; rrem : dir; proc : option (mgr S) }.
Definition with_proc (w : world) (p : option (mgr S)) : world := {| loc := loc w; rem := rem w; rloc := rloc w; rrem := rrem w; proc := p |}.
Definition stored_as (w : world) (h : handler) (how : transfer) (files : list (file S)) : world :=
  match files with
  | Good d :: _ => let lr := upload h how d (loc w) (rem w) in {| loc := fst lr; rem := snd lr; rloc := rloc w; rrem := rrem w; proc := proc w |}
  | _ => w
  end.
Definition still (h : handler) (how : transfer) (files : list (file S)) : bool := match files with [] => true | _ => goes_on h how end.
Variables (bs : nat) (init : S) (iter : nat -> S -> S -> Prop) (rejected : S -> S -> Prop) (h : handler).
Inductive event : world -> world -> Prop :=
| Succeed w m s' how : proc w = Some m -> iter (t m) (cur m) s' -> (* 189-201, 294-331 *)
    let r := run S bs Good [] m s' in
    event w (with_proc (stored_as w h how (snd r)) (if still h how (snd r) then Some (fst r) else None))
| Outlier w m s1 : proc w = Some m -> rejected (cur m) s1 ->
    event w (with_proc w (Some {| t := t m; cur := s1; rows := rows m; ws := ws m; unsafe_step := unsafe_step m; safe_step := safe_step m |}))
| Recover w m m' : proc w = Some m -> rollback S m = Some m' -> event w (with_proc w (Some m'))
| Leave w m how : proc w = Some m -> (* 144-148: leaving the context uploads again *)
    event w (with_proc (stored_as w h how (match data_at m (safe_step m) with Some d => [Good d] | None => [] end)) None)
| Kill w m : proc w = Some m -> event w (with_proc w None)
| Lose w : event w {| loc := []; rem := rem w; rloc := []; rrem := rrem w; proc := None |} (* another machine *)
| Start w o1 o2 l1 l2 l3 l4 : proc w = None -> ls h (rem w) l1 -> ls h (rrem w) l2 -> (* 115-134, 225-247 *)
    let loc' := download h o1 l1 (loc w) in let rloc' := match o1 with Killed => rloc w | _ => download h o2 l2 (rloc w) end in
    ls Local loc' l3 -> ls Local rloc' l4 ->
    event w {| loc := loc'; rem := rem w; rloc := rloc'; rrem := rrem w;
               proc := match o1, o2 with Killed, _ => None | _, Killed => None | _, _ => load init (find_latest (l3 ++ l4)) end |}.
Inductive history (first : world -> Prop) : world -> Prop :=
| First w : first w -> history first w
| Later w w' : history first w -> event w w' -> history first w'.
End Storage.
Arguments Whole {S}. Arguments Part {S}. Arguments loc {S}. Arguments rem {S}. Arguments rloc {S}. Arguments rrem {S}. Arguments proc {S}.

(** ** lazy_setup: ckpt_metric_manager.py 107-112, 136-142, 215-216, 235-236.  The flag [already_setup] and whether the fields were set up. *)
Record flags := { already_setup : bool; fields : bool }.
Definition construct (lazy_setup : bool) : flags := if lazy_setup then {| already_setup := false; fields := false |} else {| already_setup := true; fields := true |}.
Definition enter (f : flags) : flags := if already_setup f then f else {| already_setup := already_setup f; fields := true |}.
(** does load_restore_data (or restore_and_rollback) get past the guard? *)
Definition may_load (f : flags) : bool := already_setup f.

(** ** data_path.py 53-84.  What a path names; [given] = not None and not blank (has_local, has_remote). *)
Inductive node := Absent | Directory | Regular.
(** setup 60-81 of one path; the third component says whether a temporary directory is used *)
Definition setup_path (local_given remote_given : bool) (local remote : node) : option (node * node * bool) :=
  let l := if local_given then match local with Absent => Some (Directory, false) | Directory => Some (Directory, false) | Regular => None end else Some (local, true) in
  match l with
  | None => None
  | Some (l', tmp) =>
      if remote_given then match remote with Directory => Some (l', Directory, tmp) | Regular => None | Absent => Some (l', Directory, tmp) end
      else Some (l', remote, tmp)
  end.
