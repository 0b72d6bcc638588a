(** C53: polynomials on the unit sphere and their surface integral. *)
From Coq Require Import Reals List Arith.
From Coquelicot Require Import Coquelicot.
Import ListNotations.
Open Scope R_scope.

(** a point or function of three coordinates *)
Definition vec := (R * R * R)%type.
Definition fn := R -> R -> R -> R.
Definition at_pt (f : fn) (p : vec) : R := f (fst (fst p)) (snd (fst p)) (snd p).
(** [Poly d f]: [f] is a polynomial function of total degree at most [d] *)
Inductive Poly (d : nat) : fn -> Prop :=
| Mono k a b c : (a + b + c <= d)%nat -> Poly d (fun x y z => k * (x ^ a * y ^ b * z ^ c))
| Plus f g : Poly d f -> Poly d g -> Poly d (fun x y z => f x y z + g x y z)
| Ext f g : Poly d f -> (forall x y z, f x y z = g x y z) -> Poly d g.
(** The surface integral over the unit sphere, in the coordinates z in [-1,1] and the azimuth (the
    area element is dz dphi). *)
Definition on_sphere (f : fn) (phi z : R) : R := f (sqrt (1 - z * z) * cos phi) (sqrt (1 - z * z) * sin phi) z.
Definition sphere_integral (f : fn) (v : R) : Prop :=
  exists inner : R -> R, (forall phi, is_RInt (on_sphere f phi) (-1) 1 (inner phi)) /\ is_RInt inner 0 (2 * PI) v.
(** the average over the random rotations that the code draws: two independent uniform draws *)
Definition average2 (f : R -> R -> R) (v : R) : Prop := exists inner : R -> R, (forall u, is_RInt (f u) 0 1 (inner u)) /\ is_RInt inner 0 1 v.
