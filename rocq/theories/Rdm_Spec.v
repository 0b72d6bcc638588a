(** Specification for C74. *)
From Coq Require Import Reals List Arith Lra.
From Coquelicot Require Import Coquelicot.
From Verif Require Import Hall_Spec Wf_Model Wf_Spec.
Import ListNotations.
Open Scope R_scope.

(** Orbital k = 0 .. q of the lowest level of q flux quanta (L_z = k - q/2), normalised on the unit sphere. *)
Definition orbital (q k : nat) (p : R * R) : C :=
  Cmult (RtoC ((-1) ^ (q - k) * sqrt ((INR q + 1) / (4 * PI) * Binomial.C q k))) (Cmult (power (u_of p) k) (power (v_of p) (q - k))).
(** The point is not closer to a pole than the cutoff of the estimator's orbitals. *)
Definition off_poles (p : R * R) : Prop := 0 < fst p < PI /\ -1 + / 10000 <= cos (fst p) <= 1 - / 10000.
(** Electron a is put at r. *)
Definition put (e : nat -> R * R) (a : nat) (r : R * R) : nat -> R * R := fun j => if Nat.eqb j a then r else e j.
(** Every electron turned about the z axis. *)
Definition turn (alpha : R) (p : R * R) : R * R := (fst p, snd p + alpha).
Definition phase (x : R) : C := (cos x, sin x).
