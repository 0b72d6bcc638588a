(** Specification for C70: the attention function and what it means that a tracked array holds exact derivatives. *)
From Coq Require Import Reals List Arith.
From Verif Require Import Lin Shape Lap_Spec Lap_Lang Lap_Model Sparse_Model.
Import ListNotations.
Open Scope R_scope.

(** out[i, h, d] = sum_j exp(q_ih . k_jh / sqrt D) v_jhd / sum_j exp(q_ih . k_jh / sqrt D), with arrays of three indices *)
Definition attended (n D : nat) (q k v : nat -> nat -> nat -> R) (i h d : nat) : R :=
  let e j := exp (sum D (fun x => q i h x * k j h x) / sqrt (INR D)) in
  sum n (fun j => e j * v j h d) / sum n e.
(** the value, the Jacobian in the public dense layout and the Laplacian of a possibly tracked array *)
Definition value_of (v : sval) : arr := match v with SPlain a => a | SDense t => lx t | SSparse t => sx t end.
Definition jacobian_of (b : basis) (sh : list nat) (v : sval) (k o : nat) : R :=
  match v with SPlain _ => 0 | SDense t => jac t k o | SSparse t => to_dense b sh t k o end.
Definition laplacian_of (v : sval) : arr := match v with SPlain _ => fun _ => 0 | SDense t => lapl t | SSparse t => sl t end.
(** [v] holds the value and the exact derivatives of [F] at [p] with respect to the tracked input *)
Definition exact (b : basis) (w p : vec) (sh : list nat) (F : vec -> arr) (v : sval) : Prop :=
  forall o, (o < size sh)%nat -> gradient_and_laplacian (b_n b) w p (fun r => F r o) (value_of v o) (fun k => jacobian_of b sh v k o) (laplacian_of v o).
(** element (i, h, d) of a row-major array of shape (_, H, D) *)
Definition entry (H D : nat) (a : arr) (i h d : nat) : R := a ((i * H + h) * D + d)%nat.
