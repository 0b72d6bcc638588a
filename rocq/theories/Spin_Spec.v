(** Specification for C78: total spin of n spin-1/2 particles.

    A state gives every list of positions and every list of spins a complex amplitude. The
    spin operators act through the Pauli matrices on one spin at a time; the state of n
    electrons changes sign when two electrons exchange their positions and their spins. *)
From Coq Require Import Reals Arith.
From Coquelicot Require Import Coquelicot.
From Verif Require Import Sph_Spec.
Open Scope C_scope.

Definition spins := nat -> bool.                    (* true is up *)
Definition state (P : Type) := (nat -> P) -> spins -> C.

Definition flip (i : nat) (s : spins) : spins := fun k => if Nat.eqb k i then negb (s k) else s k.
Definition pm (b : bool) : C := if b then 1 else - (1).

(** (sigma_x f)(s) = f(-s), (sigma_y f)(up) = -i f(down), (sigma_y f)(down) = i f(up),
    (sigma_z f)(s) = s f(s); each total spin component is half the sum. *)
Definition Sx {P} (n : nat) (f : state P) : state P := fun r s => / 2 * csigma n (fun i => f r (flip i s)).
Definition Sy {P} (n : nat) (f : state P) : state P := fun r s => / 2 * csigma n (fun i => - Ci * pm (s i) * f r (flip i s)).
Definition Sz {P} (n : nat) (f : state P) : state P := fun r s => / 2 * csigma n (fun i => pm (s i) * f r s).
Definition S2 {P} (n : nat) (f : state P) : state P := fun r s =>
  Sx n (Sx n f) r s + Sy n (Sy n f) r s + Sz n (Sz n f) r s.

Definition exchange {A} (i j : nat) (l : nat -> A) : nat -> A := fun k => if Nat.eqb k i then l j else if Nat.eqb k j then l i else l k.
Definition fermionic {P} (n : nat) (f : state P) : Prop :=
  forall i j r s, (i < n)%nat -> (j < n)%nat -> i <> j -> f (exchange i j r) (exchange i j s) = - f r s.

(** The first [up] electrons are up, the others down. *)
Definition up_first (up : nat) : spins := fun k => Nat.ltb k up.
