(** Specification for C69: the spinors of a point of the sphere, the pair factor and products over pairs. *)
From Coq Require Import Reals List Arith.
From Coquelicot Require Import Coquelicot.
Import ListNotations.
Open Scope R_scope.

(** A point (theta, phi) of the unit sphere, and the straight-line distance of two such points. *)
Definition x_of (p : R * R) : R := sin (fst p) * cos (snd p).
Definition y_of (p : R * R) : R := sin (fst p) * sin (snd p).
Definition z_of (p : R * R) : R := cos (fst p).
Definition distance (p q : R * R) : R := sqrt ((x_of p - x_of q) ^ 2 + (y_of p - y_of q) ^ 2 + (z_of p - z_of q) ^ 2).
Definition distinct (n : nat) (e : nat -> R * R) : Prop := forall i j, (i < n)%nat -> (j < n)%nat -> i <> j -> distance (e i) (e j) <> 0.

(** u = cos(theta/2) e^(i phi/2), v = sin(theta/2) e^(-i phi/2) *)
Definition u_of (p : R * R) : C := (cos (fst p / 2) * cos (snd p / 2), cos (fst p / 2) * sin (snd p / 2)).
Definition v_of (p : R * R) : C := (sin (fst p / 2) * cos (snd p / 2), - (sin (fst p / 2) * sin (snd p / 2))).
(** u_i v_j - u_j v_i *)
Definition pair_factor (e : nat -> R * R) (i j : nat) : C := Cminus (Cmult (u_of (e i)) (v_of (e j))) (Cmult (u_of (e j)) (v_of (e i))).
Fixpoint power (z : C) (k : nat) : C := match k with O => RtoC 1 | S k' => Cmult z (power z k') end.
(** product of f i over i < n, and of f i j over i < j < n *)
Fixpoint product (n : nat) (f : nat -> C) : C := match n with O => RtoC 1 | S k => Cmult (product k f) (f k) end.
Definition pair_product (n : nat) (f : nat -> nat -> C) : C := product n (fun j => product j (fun i => f i j)).
(** electron i goes once around the axis *)
Definition turned (i : nat) (e : nat -> R * R) : nat -> R * R := fun j => if Nat.eqb j i then (fst (e j), snd (e j) + 2 * PI) else e j.
Definition sign_of (k : nat) (z : C) : C := if Nat.even k then z else Copp z.
