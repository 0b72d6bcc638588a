(** Specification for C83 (nothing of the code): the kinetic energy of a wavefunction of n real coordinates. *)
From Coq Require Import Reals List Arith Lra.
From Coquelicot Require Import Coquelicot.
From Verif Require Import Lin Sph_Spec.
Open Scope R_scope.
Local Notation vec := Lin.vec.

(** the point x with coordinate k replaced by t *)
Definition put (x : vec) (k : nat) (t : R) : vec := fun j => if Nat.eqb j k then t else x j.
(** - 1/2 sum_k d^2 psi / dx_k^2 *)
Definition kinetic_energy (n : nat) (psi : vec -> R) (x : vec) : R :=
  - (1 / 2) * sum n (fun k => Derive_n (fun t => psi (put x k t)) 2 (x k)).
Definition ckinetic_energy (n : nat) (psi : vec -> C) (x : vec) : C :=
  Cmult (RtoC (- (1 / 2))) (csigma n (fun k => CDerive (fun t => CDerive (fun s => psi (put x k s)) t) (x k))).

(** Along every coordinate line through x: f is log |psi| near x, and psi, not zero at x, is twice differentiable. *)
Definition log_abs (n : nat) (psi f : vec -> R) (x : vec) : Prop :=
  psi x <> 0 /\
  (exists eps, 0 < eps /\ forall k, (k < n)%nat -> forall t, Rabs (t - x k) < eps ->
    exp (f (put x k t)) = Rabs (psi (put x k t)) /\ ex_derive (fun s => psi (put x k s)) t) /\
  (forall k, (k < n)%nat -> ex_derive (Derive (fun s => psi (put x k s))) (x k)).
(** Complex wavefunctions: f is a logarithm of psi near x, twice differentiable along every coordinate line. *)
Definition cdifferentiable (f : R -> C) (t : R) : Prop := exists l, cderive f t l.
Definition complex_log (n : nat) (psi f : vec -> C) (x : vec) : Prop :=
  (exists eps, 0 < eps /\ forall k, (k < n)%nat -> forall t, Rabs (t - x k) < eps ->
    psi (put x k t) = exp_of (f (put x k t)) /\ cdifferentiable (fun s => f (put x k s)) t) /\
  (forall k, (k < n)%nat -> cdifferentiable (CDerive (fun s => f (put x k s))) (x k)).
