(** Model of /repo/src/jaqmc/workflow/base.py: config_path (134-139),
    config_backup_path (141-152), prepare (154-186), __call__ (128-132),
    init_batched_data's size check (212-218).

    A directory tree is a finite map from path to content.  File operations are the
    units at which a process can die. *)
From Coq Require Import String Ascii List Bool Arith Decimal DecimalString.
From Verif Require Import Common.
Import ListNotations.
Open Scope string_scope.

Definition fs := list (string * string).
Definition exists_file (f : fs) (p : string) : bool :=
  match dict_get f p with Some _ => true | None => false end.

(** str(n) *)
Definition str_nat (n : nat) : string := NilZero.string_of_uint (Nat.to_uint n).

(** config_path, lines 134-139 (relative to the save path); [ns] is config_namespace. *)
Definition config_stem (ns : option string) : string :=
  match ns with Some n => if String.eqb n "" then "config" else n ++ "_config" | None => "config" end.
Definition config_path (ns : option string) : string := config_stem ns ++ ".yaml".

(** config_backup_path, lines 141-152; [fuel] bounds the while loop of line 149. *)
Definition backup_stem (ns : option string) (timestamp : string) : string :=
  "config_history/" ++ config_stem ns ++ ".backup_" ++ timestamp.
Fixpoint backup_loop (fuel : nat) (f : fs) (stem path : string) (suffix : nat) : option string :=
  match fuel with
  | O => None
  | S fuel' =>
      if exists_file f path then backup_loop fuel' f stem (stem ++ "_" ++ str_nat suffix ++ ".yaml") (suffix + 1)
      else Some path
  end.
Definition config_backup_path (f : fs) (ns : option string) (timestamp : string) : option string :=
  let stem := backup_stem ns timestamp in
  backup_loop (S (length f)) f stem (stem ++ ".yaml") 1.

(** File operations. *)
Inductive op :=
| Rename (src dst : string)
| Truncate (p : string)                 (* write_text opens with mode "w" ... *)
| Write (p content : string).           (* ... then the content reaches the disk *)

Definition dict_del {A} (d : list (string * A)) (k : string) : list (string * A) :=
  filter (fun kv => negb (String.eqb (fst kv) k)) d.

Definition do_op (f : fs) (o : op) : fs :=
  match o with
  | Rename src dst => match dict_get f src with
                      | Some c => dict_set (dict_del f src) dst c
                      | None => f
                      end
  | Truncate p => dict_set f p ""
  | Write p c => dict_set f p c
  end.

(** One call of prepare: [finalize_ok] is whether cfg.finalize returned. *)
Record call := {
  process_index : nat;
  dry_run : bool;
  finalize_ok : bool;
  current_yaml : string;
  timestamp : string
}.

(** The file operations of prepare, lines 161-179; None: the call raised. *)
Definition prepare_ops (f : fs) (ns : option string) (c : call) : option (list op) :=
  if Nat.eqb (process_index c) 0 then
    let p := config_path ns in
    let previous := dict_get f p in
    if finalize_ok c then
      if dry_run c then Some []
      else
        match previous with
        | Some old =>
            if String.eqb old (current_yaml c) then Some [Truncate p; Write p (current_yaml c)]
            else match config_backup_path f ns (timestamp c) with
                 | Some b => Some [Rename p b; Truncate p; Write p (current_yaml c)]
                 | None => None
                 end
        | None => Some [Truncate p; Write p (current_yaml c)]
        end
    else None
  else Some [].

Definition run_ops (f : fs) (os : list op) : fs := fold_left do_op os f.

(** A complete prepare. *)
Definition prepare (f : fs) (ns : option string) (c : call) : fs :=
  match prepare_ops f ns c with Some os => run_ops f os | None => f end.
(** A prepare during which the process dies after [k] operations. *)
Definition prepare_crash (f : fs) (ns : option string) (c : call) (k : nat) : fs :=
  match prepare_ops f ns c with Some os => run_ops f (firstn k os) | None => f end.

(** init_batched_data, lines 212-219: walkers per process. *)
Definition local_batch (batch_size process_count : nat) : res nat :=
  if Nat.eqb (batch_size mod process_count) 0 then Ok (batch_size / process_count) else Raise ValueError.
