(** Specification for C84, C85 (nothing of the code). *)
From Coq Require Import Reals List Arith.
From Coquelicot Require Import Coquelicot.
From Verif Require Import Lin Shape Sph_Spec.
Import ListNotations.
Open Scope R_scope.

(** A tensor: the entry at every multi-index. *)
Definition tensor (T : Type) := list nat -> T.
(** A dense layer. [x] has shape lead ++ ins, [w] shape ins ++ outs, [b] shape outs: at lead index [l] and output
    index [o] it gives sum_i x[l, i] w[i, o] + b[o], i running over the multi-indices of [ins]. *)
Definition dense_layer (ins : list nat) (x w b : tensor R) (l o : list nat) : R :=
  sum (size ins) (fun i => x (l ++ unravel ins i)%list * w (unravel ins i ++ o)%list) + b o.

(** Mean over the multi-indices of a shape. *)
Definition mean_over (s : list nat) (f : list nat -> R) : R := sum (size s) (fun a => f (unravel s a)) / INR (size s).

(** Re (conj u v) *)
Definition re_inner (u v : C) : R := fst u * fst v + snd u * snd v.
(** The real part of the (uncentred) S matrix of stochastic reconfiguration over N samples:
    Re (1/N) sum_n conj(d log psi_n / d theta_i) (d log psi_n / d theta_j). *)
Definition re_S (N : nat) (O : nat -> nat -> C) (i j : nat) : R := sum N (fun n => re_inner (O n i) (O n j)) / INR N.

(** Symmetric positive semidefinite of size n. *)
Definition quadratic (n : nat) (M : mat) (v : vec) : R := sum n (fun i => sum n (fun j => v i * M i j * v j)).
Definition psd (n : nat) (M : mat) : Prop :=
  (forall i j, (i < n)%nat -> (j < n)%nat -> M i j = M j i) /\ forall v, 0 <= quadratic n M v.
(** Kronecker product of an n-by-n matrix with an m-by-m matrix: row i * m + o, column j * m + p. *)
Definition kron (m : nat) (A B : mat) : mat := fun r c => A (r / m)%nat (c / m)%nat * B (r mod m)%nat (c mod m)%nat.

(** Sample covariance. *)
Definition average (N : nat) (f : nat -> R) : R := sum N f / INR N.
Definition covariance (N : nat) (f g : nat -> R) : R := average N (fun n => (f n - average N f) * (g n - average N g)).

(** [g] is the gradient at [y] of a complex function of [n] real variables. *)
Definition cgradient (n : nat) (h : vec -> C) (y : vec) (g : nat -> C) : Prop :=
  forall d, cderive (fun s => h (fun k => y k + s * d k)) 0 (csigma n (fun k => Cmult (RtoC (d k)) (g k))).
