(** Model of the rules of /repo/src/jaqmc/laplacian/primitives for gathers (indexing.py),
    maxima and minima over axes (reductions.py 64-134), splits (shape.py 233-266), rounding
    (elementwise.py 130-143), remainders (arithmetic.py 269-290) and powers with a plain
    exponent (arithmetic.py 436-469), on sparse values and on dense ones.

    Simplifications: as in Sparse_Model.v (real arithmetic, flat row-major arrays, natural
    axes and shapes). The primitives themselves (jax.lax.gather, reduce_max, split, ...) and
    JAX's jvp of each are taken from their documentation; indices are integers of any sign;
    PROMISE_IN_BOUNDS behaves like CLIP on indices that break the promise (what XLA does).
    The ONE_HOT mode (rejected, indexing.py 151-155) and tracked indices (indexing.py 140-147,
    impossible for integers) are left out. *)
From Coq Require Import Reals ZArith List Arith Bool.
From Verif Require Import Lin Shape Lap_Spec Lap_Lang Lap_Model Sparse_Model.
Import ListNotations.
Open Scope nat_scope.

(** ** jax.lax.gather *)
Inductive gmode := Clip | FillOrDrop | Promise.
Record gdims := { offset_dims : list nat; collapsed : list nat; index_map : list nat; op_batch : list nat; idx_batch : list nat }.
(** A gather: dimension numbers, slice sizes, mode, shape of the indices (the index vectors
    are along the last axis) and the indices, flat. *)
Record gather := { g_dims : gdims; slices : list nat; g_mode : gmode; i_shape : list nat; indices : nat -> Z }.
Definition out_rank (g : gather) : nat := length (offset_dims (g_dims g)) + (length (i_shape g) - 1).
Definition batch_axes (g : gather) : list nat := kept (offset_dims (g_dims g)) (out_rank g).
Definition retained (g : gather) (rank : nat) : list nat := kept (collapsed (g_dims g) ++ op_batch (g_dims g)) rank.
Definition g_shape (g : gather) (sh : list nat) : list nat :=
  map (fun a => if mem a (offset_dims (g_dims g)) then at_ (slices g) (at_ (retained g (length sh)) (index_of a (offset_dims (g_dims g))))
                else at_ (i_shape g) (index_of a (batch_axes g))) (seq 0 (out_rank g)).
(** component [j] of the index vector of the output element with multi-index [oi] *)
Definition index_at (g : gather) (oi : list nat) (j : nat) : Z := indices g (ravel (i_shape g) (map (at_ oi) (batch_axes g) ++ [j])).
Definition room (g : gather) (sh : list nat) (d : nat) : Z := (Z.of_nat (at_ sh d) - Z.of_nat (at_ (slices g) d))%Z.
Definition window_start (g : gather) (sh oi : list nat) (d : nat) : nat :=
  if mem d (index_map (g_dims g)) then Z.to_nat (Z.max 0 (Z.min (index_at g oi (index_of d (index_map (g_dims g)))) (room g sh d)))
  else if mem d (op_batch (g_dims g)) then at_ oi (at_ (batch_axes g) (at_ (idx_batch (g_dims g)) (index_of d (op_batch (g_dims g)))))
  else 0.
Definition window_offset (g : gather) (sh oi : list nat) (d : nat) : nat :=
  if mem d (retained g (length sh)) then at_ oi (at_ (offset_dims (g_dims g)) (index_of d (retained g (length sh)))) else 0.
Definition in_bounds (g : gather) (sh oi : list nat) : bool :=
  forallb (fun d => let i := index_at g oi (index_of d (index_map (g_dims g))) in (0 <=? i)%Z && (i <=? room g sh d)%Z) (index_map (g_dims g)).
(** The operand element an output element is read from; [None]: the fill value. *)
Definition g_src (g : gather) (sh : list nat) (o : nat) : option nat :=
  let oi := unravel (g_shape g sh) o in
  if match g_mode g with FillOrDrop => negb (in_bounds g sh oi) | _ => false end then None
  else Some (ravel sh (map (fun d => window_start g sh oi d + window_offset g sh oi d) (seq 0 (length sh)))).
Definition gather_arr {A} (g : gather) (sh : list nat) (fill : A) (a : nat -> A) (o : nat) : A :=
  match g_src g sh o with Some m => a m | None => fill end.

(** ** Owners of a gathered array, indexing.py 28-111 *)
Definition label_list (l : option nat) : list nat := match l with Some p => [p] | None => [] end.
Definition list_max (l : list nat) : nat := fold_right Nat.max 0 l.
(** 28-58: labels of the output elements, [None] for a filled one (-1) *)
Definition factorize (out : list nat) (labels : nat -> option nat) : option role :=
  if existsb (Nat.eqb 0) out then None
  else
    let ids := flat_map (fun o => label_list (labels o)) (seq 0 (size out)) in
    match ids with
    | [] => Some (mk_role None [0])
    | p :: _ =>
        if forallb (Nat.eqb p) ids then Some (mk_role None [p])
        else
          let row a i := flat_map (fun o => if Nat.eqb (nth a (unravel out o) 0) i then label_list (labels o) else []) (seq 0 (size out)) in
          let value a i := match row a i with [] => p | l => list_max l end in
          match find (fun a => forallb (fun i => forallb (Nat.eqb (value a i)) (row a i)) (seq 0 (at_ out a))) (seq 0 (length out)) with
          | Some a => Some (mk_role (Some a) (map (value a) (seq 0 (at_ out a))))
          | None => None
          end
    end.
(** 61-111; [concrete]: the indices are known when tracing *)
Definition gather_role (g : gather) (sh : list nat) (concrete : bool) (r : role) : option role :=
  if concrete then
    match ax r with
    | None => Some r
    | Some _ => factorize (g_shape g sh) (gather_arr g sh None (fun m => Some (owner_id sh r m)))
    end
  else
    if Nat.eqb (length (vals r)) 0 then None
    else match ax r with
         | None => Some (mk_role None (firstn 1 (vals r)))
         | Some a =>
             if all_equal (vals r) then Some (mk_role None (firstn 1 (vals r)))
             else if mem a (index_map (g_dims g)) then None
             else if mem a (op_batch (g_dims g)) then None
             else if mem a (collapsed (g_dims g)) then Some (mk_role None (firstn 1 (vals r)))
             else Some (mk_role (Some (at_ (offset_dims (g_dims g)) (index_of a (retained g (length sh))))) (firstn (at_ (slices g) a) (vals r)))
         end.
(** ** Blocks of a gathered array, indexing.py 114-138: one gather on the array of shape
    (slots, coordinates, ...), with the axes shifted *)
Definition shift2 (l : list nat) : list nat := map (fun a => a + 2) l.
Definition block_gather (g : gather) (S C : nat) : gather :=
  let d := g_dims g in
  {| g_dims := {| offset_dims := 0 :: 1 :: shift2 (offset_dims d); collapsed := shift2 (collapsed d); index_map := shift2 (index_map d);
                  op_batch := shift2 (op_batch d); idx_batch := idx_batch d |};
     slices := S :: C :: slices g; g_mode := g_mode g; i_shape := i_shape g; indices := indices g |}.
Definition block_array (S C : nat) (sh : list nat) (blk : nat -> nat -> arr) : arr :=
  fun i => let ix := unravel (S :: C :: sh) i in blk (nth 0 ix 0) (nth 1 ix 0) (ravel sh (skipn 2 ix)).
Definition gathered_blocks (g : gather) (b : basis) (sh : list nat) (t : sparse) : nat -> nat -> arr :=
  let S := slots t in let C := b_C b in let bg := block_gather g S C in
  fun s c o => gather_arr bg (S :: C :: sh) 0%R (block_array S C sh (blk t)) (ravel (g_shape bg (S :: C :: sh)) (s :: c :: unravel (g_shape g sh) o)).

(** The dense rule (core.py 335-365 with JAX's jvp of gather: derivatives are gathered with
    fill value 0). *)
Definition dense_gather (g : gather) (sh : list nat) (fill : R) (v : value) : value :=
  match v with
  | Plain a => Plain (gather_arr g sh fill a)
  | Tracked t => Tracked {| lx := gather_arr g sh fill (lx t); jac := fun k => gather_arr g sh 0%R (jac t k); lapl := gather_arr g sh 0%R (lapl t) |}
  end.
(** indexing.py 130-203 *)
Definition handle_gather (g : gather) (concrete : bool) (fill : R) (b : basis) (sh : list nat) (x : sval) : sval :=
  match x with
  | SSparse t =>
      match map_roles (gather_role g sh concrete) (owners t) with
      | Some ow => SSparse {| sx := gather_arr g sh fill (sx t); owners := ow; blk := gathered_blocks g b sh t; sl := gather_arr g sh 0%R (sl t) |}
      | None => embed (dense_gather g sh fill (densify b sh x))
      end
  | _ => embed (dense_gather g sh fill (densify b sh x))
  end.

(** ** reduce_max and reduce_min, reductions.py 64-134 *)
Open Scope R_scope.
Definition extreme (best : R -> R -> R) (l : list R) : R := match l with [] => 0 | a :: l' => fold_left best l' a end.
Definition reduced (best : R -> R -> R) (axes sh : list nat) (a : arr) : arr := fun o => extreme best (map a (sum_elems axes sh o)).
Definition hit (best : R -> R -> R) (axes sh : list nat) (a : arr) (m : nat) : R :=
  if Req_EM_T (a m) (reduced best axes sh a (sum_dest axes sh m)) then 1 else 0.
Definition ties (best : R -> R -> R) (axes sh : list nat) (a : arr) (o : nat) : R := lsum (hit best axes sh a) (sum_elems axes sh o).
(** 89-93 *)
Definition tie_weight (best : R -> R -> R) (axes sh : list nat) (a : arr) (m : nat) : R :=
  hit best axes sh a m / ties best axes sh a (sum_dest axes sh m).
(** JAX's jvp of reduce_max and reduce_min: the sum over the winners divided by their number *)
Definition dense_reduce (best : R -> R -> R) (axes sh : list nat) (v : value) : value :=
  match v with
  | Plain a => Plain (reduced best axes sh a)
  | Tracked t =>
      let avg := fun (f : arr) o => lsum (fun m => f m * hit best axes sh (lx t) m) (sum_elems axes sh o) / ties best axes sh (lx t) o in
      Tracked {| lx := reduced best axes sh (lx t); jac := fun k => avg (jac t k); lapl := avg (lapl t) |}
  end.
Definition handle_reduce (best : R -> R -> R) (axes : list nat) (b : basis) (sh : list nat) (x : sval) : sval :=
  match x with
  | SSparse t =>
      let w := tie_weight best axes sh (sx t) in
      let total := fun (f : arr) o => lsum f (sum_elems axes sh o) in
      match map_roles (reduce_role axes) (owners t) with
      | Some ow => SSparse {| sx := reduced best axes sh (sx t); owners := ow; blk := fun s c => total (fun m => blk t s c m * w m); sl := total (fun m => w m * sl t m) |}
      | None => SDense {| lx := reduced best axes sh (sx t); jac := fun k => total (fun m => to_dense b sh t k m * w m); lapl := total (fun m => w m * sl t m) |}
      end
  | _ => embed (dense_reduce best axes sh (densify b sh x))
  end.

(** ** split, shape.py 233-266 *)
Definition replace_at (l : list nat) (a v : nat) : list nat := map (fun i => if Nat.eqb i a then v else at_ l i) (seq 0 (length l)).
(** the slice taken for a piece of length [len] from [start] *)
Definition piece_layout (sh : list nat) (axis start len : nat) : layout :=
  Slice (replace_at (repeat 0%nat (length sh)) axis start) (replace_at sh axis (start + len)) (repeat 1%nat (length sh)).
(** jax.lax.split: element [o] of the piece of length [len] from [start] *)
Definition split_src (sh : list nat) (axis start len : nat) (o : nat) : nat :=
  ravel sh (map (fun a => let i := at_ (unravel (replace_at sh axis len) o) a in if Nat.eqb a axis then (start + i)%nat else i) (seq 0 (length sh))).
Definition dense_piece (sh : list nat) (axis start len : nat) (v : value) : value :=
  match v with
  | Plain a => Plain (fun o => a (split_src sh axis start len o))
  | Tracked t => Tracked {| lx := fun o => lx t (split_src sh axis start len o); jac := fun k o => jac t k (split_src sh axis start len o); lapl := fun o => lapl t (split_src sh axis start len o) |}
  end.
Fixpoint handle_split (b : basis) (sh : list nat) (axis start : nat) (sizes : list nat) (x : sval) : list sval :=
  match sizes with
  | [] => []
  | len :: rest =>
      match x with
      | SSparse t =>
          (* values and Laplacian by split, Jacobian by slicing *)
          match apply_layout (piece_layout sh axis start len) sh t with
          | Some t' => SSparse {| sx := fun o => sx t (split_src sh axis start len o); owners := owners t'; blk := blk t'; sl := fun o => sl t (split_src sh axis start len o) |}
          | None => embed (dense_piece sh axis start len (densify b sh x))
          end
      | _ => embed (dense_piece sh axis start len (densify b sh x))
      end :: handle_split b sh axis (start + len) rest x
  end.

(** ** round, elementwise.py 130-143; remainder, arithmetic.py 269-290; power, 436-469 *)
(** jax.lax.round: to the nearest integer, halves away from zero or to the even neighbour *)
Inductive half := AwayFromZero | ToNearestEven.
Definition round_half (h : half) (x : R) : R :=
  let n := floor x in let f := x - IZR n in
  if Rlt_dec f (1 / 2) then IZR n
  else if Rlt_dec (1 / 2) f then IZR (n + 1)
  else match h with AwayFromZero => if (0 <=? n)%Z then IZR (n + 1) else IZR n
       | ToNearestEven => if Z.even n then IZR n else IZR (n + 1) end.
Definition handle_round (h : half) (x : sval) : sval :=
  match x with
  | SSparse t => SSparse {| sx := fun o => round_half h (sx t o); owners := owners t; blk := fun _ _ _ => 0; sl := fun _ => 0 |}
  | SDense t => SDense {| lx := fun o => round_half h (lx t o); jac := fun _ _ => 0; lapl := fun _ => 0 |}
  | SPlain a => SPlain (fun o => round_half h (a o))
  end.
(** jax.lax.rem: x - y * trunc(x / y) *)
Definition trunc (q : R) : R := if Rle_dec 0 q then IZR (Int_part q) else - IZR (Int_part (- q)).
Definition rem (x y : R) : R := x - y * trunc (x / y).
(** JAX's jvp of rem: the divisor's derivative times the truncated quotient is subtracted *)
Definition dense_rem (shx shy out : list nat) (x y : value) : value :=
  match x, y with
  | Plain a, Plain c => Plain (fun o => rem (a (bsrc shx out o)) (c (bsrc shy out o)))
  | _, _ =>
      let i := bsrc shx out in let j := bsrc shy out in let z := fun o => trunc (primal x (i o) / primal y (j o)) in
      Tracked {| lx := fun o => rem (primal x (i o)) (primal y (j o)); jac := fun k o => jac_of x k (i o) - jac_of y k (j o) * z o; lapl := fun o => lapl_of x (i o) - lapl_of y (j o) * z o |}
  end.
Definition handle_rem (b : basis) (shx shy out : list nat) (x y : sval) : sval :=
  match x, y with
  | SSparse t, SPlain c => let s := bcast shx out t in
      SSparse {| sx := fun o => rem (sx s o) (c (bsrc shy out o)); owners := owners s; blk := blk s; sl := sl s |}
  | _, _ => embed (dense_rem shx shy out (densify b shx x) (densify b shy y))
  end.
(** first and second derivative of v^y, arithmetic.py 448-458 (jvp of jvp of pow) *)
Definition pow1 (v y : R) : R := y * Rpower v (y - 1).
Definition pow2 (v y : R) : R := y * ((y - 1) * Rpower v (y - 1 - 1)).
(** wrap_general with a plain exponent *)
Definition dense_pow (n : nat) (shx shy out : list nat) (x : value) (y : arr) : value :=
  let q := fun o => y (bsrc shy out o) in
  match x with
  | Plain a => Plain (fun o => Rpower (a (bsrc shx out o)) (q o))
  | Tracked t => let v := fun o => lx t (bsrc shx out o) in
      Tracked {| lx := fun o => Rpower (v o) (q o); jac := fun k o => pow1 (v o) (q o) * jac t k (bsrc shx out o);
                 lapl := fun o => pow1 (v o) (q o) * lapl t (bsrc shx out o) + pow2 (v o) (q o) * sum n (fun k => jac t k (bsrc shx out o) * jac t k (bsrc shx out o)) |}
  end.
(** A tracked exponent takes the general dense rule and is left out. *)
Definition handle_pow (b : basis) (shx shy out : list nat) (x : sval) (y : arr) : sval :=
  match x with
  | SSparse t => let s := bcast shx out t in let q := fun o => y (bsrc shy out o) in
      SSparse {| sx := fun o => Rpower (sx s o) (q o); owners := owners s; blk := scale s (fun o => pow1 (sx s o) (q o));
                 sl := fun o => pow1 (sx s o) (q o) * sl s o + pow2 (sx s o) (q o) * trace b out s o |}
  | _ => embed (dense_pow (b_n b) shx shy out (densify b shx x) y)
  end.
