(** Specification for C73 and C74: moving along a great circle, Coulomb energy, orthonormal orbitals. *)
From Coq Require Import Reals List Arith Lra.
From Coquelicot Require Import Coquelicot.
From Verif Require Import Hall_Spec Sph_Spec.
Import ListNotations.
Open Scope R_scope.

(** The point reached from x by turning through the angle t along the great circle whose direction at x makes the angle p
    with the meridian; component a = 0, 1, 2 is x, y, z. *)
Definition destination (x : R * R) (t p : R) (a : nat) : R := cos t * rvec x a + sin t * (cos p * thvec x a + sin p * phvec x a).
Definition same_point (x : R * R) (v : nat -> R) : Prop := x_of x = v 0%nat /\ y_of x = v 1%nat /\ z_of x = v 2%nat.
Definition dot (x y : R * R) : R := x_of x * x_of y + y_of x * y_of y + z_of x * z_of y.
Fixpoint rsigma (n : nat) (f : nat -> R) : R := match n with O => 0 | S k => rsigma k f + f k end.
(** Coulomb energy of unit charges at the given directions on a sphere of the given radius, times a strength. *)
Definition coulomb (n : nat) (strength radius : R) (e : configuration) : R := strength * rsigma n (fun j => rsigma j (fun i => / (radius * distance (e i) (e j)))).
