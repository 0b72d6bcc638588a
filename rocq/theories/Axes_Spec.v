(** Specification for C94: equal bins, boxes and components. *)
From Coq Require Import Reals List Arith.
From Verif Require Import Lin.
Import ListNotations.
Open Scope R_scope.

(** Bin [i] of [n] equal bins of [lo, hi]; the last one includes [hi]. *)
Definition in_equal_bin (lo hi : R) (n i : nat) (x : R) : Prop :=
  (i < n)%nat /\ lo + (hi - lo) * INR i / INR n <= x /\
  (x < lo + (hi - lo) * INR (i + 1) / INR n \/ (i = n - 1)%nat /\ x = hi).
(** Component of [r] along [d] in 3 dimensions: the length of the projection, with sign. *)
Definition component (d r : vec) : R := dot 3 r d / norm 3 d.
(** Rotated vector, and what a rotation is. *)
Definition rotated (o : mat) (r : vec) : vec := fun i => sum 3 (fun j => o i j * r j).
Definition rotation (o : mat) : Prop := forall i j, (i < 3)%nat -> (j < 3)%nat -> sum 3 (fun k => o k i * o k j) = delta i j.
(** All cells of a histogram with the given numbers of bins. *)
Fixpoint cells (bins : list nat) : list (list nat) :=
  match bins with [] => [[]] | n :: rest => flat_map (fun i => map (cons i) (cells rest)) (seq 0 n) end.
Definition nsum (l : list nat) : nat := fold_right Nat.add 0%nat l.
