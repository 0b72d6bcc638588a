(** Specification for C76. *)
From Coq Require Import Reals List Arith Lra.
From Coquelicot Require Import Coquelicot.
From Verif Require Import Hall_Spec Sph_Spec Sphere_Spec.
Import ListNotations.
Open Scope R_scope.

(** theta is the angle between the directions p and q. *)
Definition is_angle (p q : R * R) (theta : R) : Prop := 0 <= theta <= PI /\ cos theta = dot p q.
(** Bin b of [bins] equal bins of [0, pi]; the last one contains pi. *)
Definition bin_contains (bins b : nat) (theta : R) : Prop :=
  INR b * (PI / INR bins) <= theta /\ (theta < INR (S b) * (PI / INR bins) \/ (S b = bins /\ theta = PI)).
Definition listsum {A} (f : A -> R) (l : list A) : R := fold_right (fun x s => f x + s) 0 l.
