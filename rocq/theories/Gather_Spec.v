(** Specification for C91: which gathers are well formed (the checks of jax.lax.gather), what
    taking the extreme of a window means, and what it means for a value to hold the exact
    derivatives of a function ([exact], Attn_Spec.v) or to agree with another value ([agree],
    Sparse_Spec.v). *)
From Coq Require Import Reals ZArith List Arith Bool.
From Verif Require Import Lin Shape Lap_Spec Lap_Lang Lap_Model Sparse_Model Sparse_Spec Gather_Model.
Import ListNotations.
Open Scope nat_scope.

(** The shape rules of jax.lax.gather. *)
Definition gather_ok (g : gather) (sh : list nat) : Prop :=
  let d := g_dims g in
  (* offset axes are axes of the result; there is one for every axis that is neither collapsed nor batched *)
  NoDup (offset_dims d) /\ (forall a, In a (offset_dims d) -> a < out_rank g) /\
  length (offset_dims d) = length (retained g (length sh)) /\
  (* slices fit the operand; collapsed and batched axes have slices of size 1 *)
  (forall a, a < length sh -> 0 < at_ (slices g) a <= at_ sh a) /\
  (forall a, In a (collapsed d) \/ In a (op_batch d) -> at_ (slices g) a = 1) /\
  (* batched axes: not indexed, and paired with axes of the indices of the same size *)
  NoDup (op_batch d) /\ (forall a, In a (op_batch d) -> ~ In a (index_map d)) /\
  (forall i, i < length (op_batch d) -> at_ (idx_batch d) i < length (i_shape g) - 1 /\ at_ (i_shape g) (at_ (idx_batch d) i) = at_ sh (at_ (op_batch d) i)).

(** Element [m] of an array lies in the window reduced to output element [o]: same coordinates
    on the axes that are kept. *)
Definition in_window (axes sh : list nat) (o m : nat) : Prop :=
  m < size sh /\ forall j, j < length (kept axes (length sh)) ->
    at_ (unravel (map (at_ sh) (kept axes (length sh))) o) j = at_ (unravel sh m) (at_ (kept axes (length sh)) j).
(** numpy.take along one axis: [idx] lists [k] positions on [axis]. *)
Definition take (sh : list nat) (axis k : nat) (idx : nat -> Z) (mode : gmode) : gather :=
  {| g_dims := {| offset_dims := filter (fun a => negb (Nat.eqb a axis)) (seq 0 (length sh)); collapsed := [axis]; index_map := [axis]; op_batch := []; idx_batch := [] |};
     slices := replace_at sh axis 1; g_mode := mode; i_shape := [k; 1]; indices := idx |}.
(** the [j]-th piece of a split and where it starts *)
Definition piece_start (sizes : list nat) (j : nat) : nat := fold_right Nat.add 0 (firstn j sizes).
