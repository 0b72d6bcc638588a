(** Model of /repo/src/jaqmc/utils/chunked_vmap.py (lines 44-208).

    An array argument is seen along its mapped axis: the list of its slices.  Which
    axis of the array that is (in_axes), and where the mapped axis is put in an output
    (out_axes, jnp.moveaxis on line 208) is a relabelling that the model leaves out, and
    the argument pytree is its list of leaves. *)
From Coq Require Import List Arith.
From Verif Require Import Common.
Import ListNotations.

Section Chunk.
Variables (X Y : Type) (dx : X) (dy : Y).

(** One input leaf: mapped (axis is not None) or shared (axis None). *)
Inductive arg := Mapped (xs : list X) | Shared (x : X).
(** One output leaf, by out_axes: an integer axis or None. *)
Inductive outspec := OAxis | ONone.
Inductive out := OutMapped (ys : list Y) | OutShared (y : Y).

(** _mapped_axis_sizes, lines 114-137. *)
Definition mapped_sizes (args : list arg) : list nat :=
  flat_map (fun a => match a with Mapped xs => [length xs] | Shared _ => [] end) args.

(** _validate_batch_sizes, lines 140-155. *)
Definition validate (sizes : list nat) : res nat :=
  match sizes with
  | [] => Raise ValueError
  | n :: rest => if forallb (Nat.eqb n) rest then Ok n else Raise ValueError
  end.

(** lax.dynamic_slice_in_dim: the start is clamped so that the slice fits. *)
Definition dynamic_slice (xs : list X) (start size : nat) : list X :=
  firstn size (skipn (Nat.min start (length xs - size)) xs).

(** _take_chunk_from_args, lines 158-175. *)
Definition take_chunk (args : list arg) (start size : nat) : list arg :=
  map (fun a => match a with
                | Mapped xs => Mapped (dynamic_slice xs start size)
                | Shared x => Shared x
                end) args.

(** jax.vmap(fun) on [n] mapped positions: [fun] sees, at position i, the i-th slice of
    every mapped leaf and the whole of every shared leaf.  An output leaf with out_axes
    None is one (unmapped) value: the one computed at the first position. *)
Definition row (args : list arg) (i : nat) : list X :=
  map (fun a => match a with Mapped xs => nth i xs dx | Shared x => x end) args.
Definition vmap (f : list X -> list Y) (specs : list outspec) (args : list arg) (n : nat) : list out :=
  map (fun js => match snd js with
                 | OAxis => OutMapped (map (fun i => nth (fst js) (f (row args i)) dy) (seq 0 n))
                 | ONone => OutShared (nth (fst js) (f (row args 0)) dy)
                 end) (combine (seq 0 (length specs)) specs).

(** _restore_vmap_output_leaf, lines 178-208: [chunks] are the outputs of the full
    chunks in scan order, [rem] the output of the remainder call. *)
Definition restore_leaf (chunks : list out) (rem : out) (spec : outspec) : out :=
  match spec with
  | ONone => nth 0 chunks rem                                     (* line 200: chunked_output[0] *)
  | OAxis =>
      OutMapped (concat (map (fun c => match c with OutMapped ys => ys | OutShared _ => [] end) chunks)
                 ++ match rem with OutMapped ys => ys | OutShared _ => [] end)  (* lines 204-207 *)
  end.

(** _chunked_vmap_wrapped, lines 44-99. *)
Definition chunked_vmap (f : list X -> list Y) (specs : list outspec) (chunk_size : option nat)
  (args : list arg) : res (list out) :=
  match validate (mapped_sizes args) with
  | Raise e => Raise e
  | Ok n =>
      match chunk_size with
      | None => Ok (vmap f specs args n)
      | Some c =>
          if n <=? c then Ok (vmap f specs args n)
          else match c with
               | O => Raise ZeroDivisionError                     (* line 68 *)
               | S _ =>
                   let num_chunks := n / c in
                   let rem := n mod c in
                   let chunk_outputs := map (fun i => vmap f specs (take_chunk args (i * c) c) c) (seq 0 num_chunks) in
                   let rem_outputs := vmap f specs (take_chunk args (num_chunks * c) rem) rem in
                   Ok (map (fun js => restore_leaf (map (fun o => nth (fst js) o (OutShared dy)) chunk_outputs)
                                                   (nth (fst js) rem_outputs (OutShared dy)) (snd js))
                           (combine (seq 0 (length specs)) specs))
               end
      end
  end.
End Chunk.
Arguments Mapped {X} xs.
Arguments Shared {X} x.
Arguments OutMapped {Y} ys.
Arguments OutShared {Y} y.
