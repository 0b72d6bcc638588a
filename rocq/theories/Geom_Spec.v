(** Specification for C34, C35, C37, C58 and C59, for a lattice given by its rows. *)
From Coq Require Import Reals Arith ZArith.
From Verif Require Import Lin.
Open Scope R_scope.

(** the lattice vector with integer coordinates k *)
Definition lattice_vector (n : nat) (l : mat) (k : nat -> Z) : vec := fun j => sum n (fun i => IZR (k i) * l i j).
(** r' is a periodic image of r *)
Definition is_image (n : nat) (l : mat) (r r' : vec) : Prop :=
  exists k, forall j, (j < n)%nat -> r' j = r j + lattice_vector n l k j.
(** Coordinates f of r in the basis of the lattice vectors. *)
Definition has_coordinates (n : nat) (l : mat) (r f : vec) : Prop :=
  forall j, (j < n)%nat -> r j = sum n (fun i => f i * l i j).
(** r lies in the primary cell *)
Definition in_cell (n : nat) (l : mat) (r : vec) : Prop :=
  exists f, has_coordinates n l r f /\ forall i, (i < n)%nat -> 0 <= f i < 1.
Definition same (n : nat) (r r' : vec) : Prop := forall j, (j < n)%nat -> r j = r' j.
(** r' is an image of r, and no image is shorter *)
Definition nearest_image (n : nat) (l : mat) (r r' : vec) : Prop :=
  is_image n l r r' /\ forall r'', is_image n l r r'' -> norm n r' <= norm n r''.
Definition add (r d : vec) : vec := fun j => r j + d j.
Definition neg (d : vec) : vec := fun j => - d j.
