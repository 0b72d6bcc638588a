(** Model of src/jaqmc/utils/checkpoint.py.

    Modelled: the names of checkpoint files, the directory search, the order in
    which candidates are tried, which errors are skipped, the flattening of a
    PyTree into an npz archive and its reading back.
    Not modelled: compression, dtypes, device placement, logging. *)
From Coq Require Import String Ascii List Bool Arith ZArith NArith Lia.
From Verif Require Import Common.
Import ListNotations.
Open Scope string_scope.

(** * File names *)

(** One decimal digit as a character. *)
Definition digit_char (d : N) : ascii := ascii_of_N (48 + d).

(** The [k] least significant decimal digits of [n], most significant first. *)
Fixpoint digits (k : nat) (n : N) : string :=
  match k with
  | O => ""
  | S k' => digits k' (n / 10)%N ++ String (digit_char (n mod 10)%N) ""
  end.

(** Number of decimal digits of [n] (1 for 0); [fuel] bounds the recursion. *)
Fixpoint ndigits_fuel (fuel : nat) (n : N) : nat :=
  match fuel with
  | O => 1
  | S f => if (n <? 10)%N then 1 else S (ndigits_fuel f (n / 10)%N)
  end.
Definition ndigits (n : N) : nat := ndigits_fuel (N.to_nat (N.size n)) n.

(** Python's [f"{step:06d}"] for a non-negative step: at least six digits,
    zero padded on the left.  checkpoint.py:174. *)
Definition fmt06 (n : N) : string := digits (Nat.max 6 (ndigits n)) n.

(** checkpoint.py:58  [self.prefix = f"{prefix}_" if prefix else ""] *)
Definition norm_prefix (prefix : string) : string :=
  if String.eqb prefix "" then "" else prefix ++ "_".

(** checkpoint.py:174  [f"{self.prefix}ckpt_{step:06d}.npz"] *)
Definition ckpt_name (prefix : string) (step : N) : string :=
  norm_prefix prefix ++ "ckpt_" ++ fmt06 step ++ ".npz".

(** checkpoint.py:135  [glob(f"{self.prefix}ckpt_*.npz")], for prefixes without
    glob metacharacters: the name starts with the literal head, and what is left
    ends with ".npz". *)
Definition glob_ckpt (prefix name : string) : bool :=
  let head := norm_prefix prefix ++ "ckpt_" in
  String.prefix head name && str_suffixb ".npz" (str_drop (String.length head) name).

(** * PyTrees and archives *)

(** What a leaf is in Python: a plain scalar, a NumPy array or a JAX array. *)
Inductive kind := KPy | KNp | KJnp.

(** The array payload: shape and flattened entries (entries as integers; the
    numeric type is irrelevant to checkpointing). *)
Record payload := mkPayload { shape : list nat; entries : list Z }.
Record leaf := mkLeaf { lkind : kind; ldata : payload }.

(** A PyTree after JAX flattening: keys are already the strings that
    [_simple_entrystr] produces (dict key, attribute name or sequence index);
    [None] is a node without children. *)
Inductive tree :=
| Leaf (l : leaf)
| Node (children : list (string * tree)).

(** [jax.tree_util.tree_leaves_with_path] *)
Fixpoint leaves_with_path (t : tree) : list (list string * leaf) :=
  match t with
  | Leaf l => [([], l)]
  | Node cs =>
      (fix go (cs : list (string * tree)) :=
         match cs with
         | [] => []
         | (k, c) :: cs' =>
             (map (fun pl => (k :: fst pl, snd pl)) (leaves_with_path c) ++ go cs')%list
         end) cs
  end.

(** checkpoint.py:198-210 [_pytree_key_path] *)
Definition key_path (path : list string) : string := str_join "/" path.

(** checkpoint.py:213-225 [tree_to_npz]: a dict comprehension, so a repeated key
    overwrites the earlier entry. *)
Definition tree_to_npz (t : tree) : list (string * payload) :=
  fold_left (fun d pl => dict_set d (key_path (fst pl)) (ldata (snd pl)))
            (leaves_with_path t) [].

(** checkpoint.py:228-254 [from_npz]: the reference leaf decides the type of the
    result; [.item()] raises on arrays that do not hold exactly one entry. *)
Definition from_npz (name : string) (npf : list (string * payload)) (ref : leaf) : res leaf :=
  match dict_get npf name with
  | None => Raise KeyError
  | Some d =>
      match lkind ref with
      | KNp => Ok (mkLeaf KNp d)
      | KJnp => Ok (mkLeaf KJnp d)
      | KPy => match entries d with
               | [z] => Ok (mkLeaf KPy (mkPayload [] [z]))
               | _ => Raise ValueError
               end
      end
  end.

(** checkpoint.py:257-274 [tree_from_npz]: every leaf of the reference is read by
    its path, left to right, the first failure propagates.  Flatten / map /
    unflatten is written as one traversal. *)
Fixpoint tree_from_npz_at (npf : list (string * payload)) (path : list string) (ref : tree)
  : res tree :=
  match ref with
  | Leaf l => bind (from_npz (key_path path) npf l) (fun l' => Ok (Leaf l'))
  | Node cs =>
      bind ((fix go (cs : list (string * tree)) : res (list (string * tree)) :=
         match cs with
         | [] => Ok []
         | (k, c) :: cs' =>
             bind (tree_from_npz_at npf (path ++ [k])%list c) (fun c' =>
             bind (go cs') (fun r => Ok ((k, c') :: r)))
         end) cs) (fun cs' => Ok (Node cs'))
  end.
Definition tree_from_npz (npf : list (string * payload)) (ref : tree) : res tree :=
  tree_from_npz_at npf [] ref.

(** * Files *)

(** State of a file on disk: a completely written archive, or the first [k] bytes
    of an archive whose writing was cut off ([k] smaller than its size). *)
Inductive file :=
| Archive (npf : list (string * payload))
| Torn (k : nat).

(** [np.load] on a torn archive (numpy/lib/_npyio_impl.py, [load]): no byte gives
    EOFError; fewer than the four bytes of the zip signature are taken for a
    pickle and rejected with ValueError; from four bytes on the zip reader fails
    to find the end-of-central-directory record, which is written last
    (BadZipFile). *)
Definition np_load (f : file) : res (list (string * payload)) :=
  match f with
  | Archive npf => Ok npf
  | Torn 0 => Raise EOFError
  | Torn k => if Nat.ltb k 4 then Raise ValueError else Raise BadZipFile
  end.

(** checkpoint.py:60-91 [restore_from_file] on a path that is a file. *)
Definition restore_from_file (f : file) (fallback : tree) : res (N * tree) :=
  bind (np_load f) (fun npf =>
  match dict_get npf "step" with
  | None => Raise KeyError
  | Some d =>
      match entries d with
      | [s] => bind (tree_from_npz npf fallback) (fun t => Ok (Z.to_N s + 1, t)%N)
      | _ => Raise ValueError
      end
  end).

(** A restore path: missing, a file, or a directory listing. *)
Inductive rpath :=
| Missing
| AFile (f : file)
| Dir (entries : list (string * file)).

(** Python [sorted(..., reverse=True)] on path names: descending code-point
    order (insertion sort). *)
Definition str_ltb (a b : string) : bool :=
  match String.compare a b with Lt => true | _ => false end.
Fixpoint insert_desc (x : string * file) (l : list (string * file)) : list (string * file) :=
  match l with
  | [] => [x]
  | y :: l' => if str_ltb (fst x) (fst y) then y :: insert_desc x l' else x :: l
  end.
Definition sort_desc (l : list (string * file)) : list (string * file) :=
  fold_right insert_desc [] l.

(** checkpoint.py:155 the exceptions that make restore try the next file. *)
Definition caught (e : exn) : bool :=
  match e with OSError | EOFError | BadZipFile => true | _ => false end.

(** checkpoint.py:151-163 the candidate loop. *)
Fixpoint try_files (fs : list (string * file)) (fallback : tree) (strict : bool)
  : res (N * tree) :=
  match fs with
  | [] => if strict then Raise RuntimeError else Ok (0%N, fallback)
  | (_, f) :: fs' =>
      match restore_from_file f fallback with
      | Ok r => Ok r
      | Raise e => if caught e then try_files fs' fallback strict else Raise e
      end
  end.

(** checkpoint.py:93-163 [restore]. *)
Definition restore (prefix : string) (p : rpath) (fallback : tree) (strict : bool)
  : res (N * tree) :=
  match p with
  | Missing => if strict then Raise FileNotFoundError else Ok (0%N, fallback)
  | AFile f => restore_from_file f fallback
  | Dir es =>
      match sort_desc (filter (fun e => glob_ckpt prefix (fst e)) es) with
      | [] => if strict then Raise FileNotFoundError else Ok (0%N, fallback)
      | fs => try_files fs fallback strict
      end
  end.

(** * Saving *)

(** Names that [np.savez_compressed(f, allow_pickle=False, step=step, **tree)]
    already uses as parameters: a leaf with such a name is a duplicate keyword
    argument. *)
Definition reserved (name : string) : bool :=
  String.eqb name "step" || String.eqb name "allow_pickle" || String.eqb name "file".

(** checkpoint.py:177-178: the archive that a completed save leaves behind. *)
Definition make_archive (step : N) (t : tree) : res file :=
  let kw := tree_to_npz t in
  if existsb (fun kv => reserved (fst kv)) kw then Raise TypeError
  else Ok (Archive (("step", mkPayload [] [Z.of_N step]) :: kw)).

(** Writing a file: the entry is created or replaced. *)
Definition put_file (d : list (string * file)) (name : string) (f : file)
  : list (string * file) := dict_set d name f.

(** checkpoint.py:165-178 [save] that runs to completion.  The target is opened
    before the arguments are evaluated, so a TypeError leaves an empty file. *)
Definition save (prefix : string) (d : list (string * file)) (step : N) (t : tree)
  : list (string * file) * res unit :=
  match make_archive step t with
  | Ok f => (put_file d (ckpt_name prefix step) f, Ok tt)
  | Raise e => (put_file d (ckpt_name prefix step) (Torn 0), Raise e)
  end.

(** The process dies during [save]: either before the file was opened ([None]),
    or after [k] bytes reached the disk. *)
Definition save_crash (prefix : string) (d : list (string * file)) (step : N)
           (at_byte : option nat) : list (string * file) :=
  match at_byte with
  | None => d
  | Some k => put_file d (ckpt_name prefix step) (Torn k)
  end.
