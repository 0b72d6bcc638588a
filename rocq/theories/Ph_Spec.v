(** Specification for C77: the pseudo-Hamiltonian operator, stated with nothing but
    derivatives of the wavefunction along straight lines and along rotations.

    A walker is the list of its 3N coordinates: coordinate [i] of electron [e] is number
    [3 * e + i]. The operator is
      H psi = -1/2 sum_e (second derivatives of psi along the axes)
              + sum_e sum_a v(e,a) * (L^2 of electron e about atom a) psi,
    and [L^2 = Lx^2 + Ly^2 + Lz^2] where [L_u^2 psi] is minus the second derivative, at angle
    0, of psi when electron [e] is turned about the axis [u] through atom [a]. *)
From Coq Require Import Reals List Arith.
From Verif Require Import Lin Lap_Spec.
Import ListNotations.
Open Scope R_scope.

(** The second derivative of a function of one variable at 0. *)
Definition second (u : R -> R) (c : R) : Prop := exists a b, jet u a b c.

(** Turning the point [q] by the angle [th] about the axis [u] (0, 1, 2) through [c]. *)
Definition turn (u : nat) (c : vec) (th : R) (q : vec) : vec := fun i =>
  if Nat.eqb i u then q i
  else if Nat.eqb i ((u + 1) mod 3) then c i + (cos th * (q i - c i) - sin th * (q ((u + 2) mod 3)%nat - c ((u + 2) mod 3)%nat))
  else c i + (sin th * (q ((u + 1) mod 3)%nat - c ((u + 1) mod 3)%nat) + cos th * (q i - c i)).

(** The position of electron [e], and the walker with that position replaced. *)
Definition electron (x : vec) (e : nat) : vec := fun i => x (3 * e + i)%nat.
Definition with_electron (x : vec) (e : nat) (q : vec) : vec := fun k => if Nat.eqb (k / 3) e then q (k mod 3)%nat else x k.
Definition distance (p q : vec) : R := norm 3 (fun i => p i - q i).

Definition pseudo_hamiltonian (N A : nat) (atoms : nat -> vec) (v : nat -> nat -> R) (psi : vec -> R) (x : vec) (hpsi : R) : Prop :=
  exists (k : nat -> nat -> R) (l : nat -> nat -> nat -> R),
    (forall e i, (e < N)%nat -> (i < 3)%nat -> second (fun s => psi (with_electron x e (fun j => electron x e j + (if Nat.eqb j i then s else 0)))) (k e i)) /\
    (forall e a u, (e < N)%nat -> (a < A)%nat -> (u < 3)%nat -> second (fun th => psi (with_electron x e (turn u (atoms a) th (electron x e)))) (l e a u)) /\
    hpsi = sum N (fun e => - (1 / 2) * sum 3 (fun i => k e i) + sum A (fun a => v e a * - sum 3 (fun u => l e a u))).

(** [g] and [h] are the gradient and the Hessian of [f] at [x], [f] being differentiable
    around [x]. *)
Definition derivatives (n : nat) (f : vec -> R) (x : vec) (g : vec) (h : mat) : Prop :=
  exists (D : vec -> Prop) (G : vec -> vec), openn n D /\ D x /\ (forall w, D w -> total n f w (G w)) /\
    (forall a, (a < n)%nat -> total n (fun w => G w a) x (h a)) /\ (forall a, (a < n)%nat -> g a = G x a).

(** Positive definiteness of a 3x3 matrix. *)
Definition nonzero (v : vec) : Prop := exists i, (i < 3)%nat /\ v i <> 0.
Definition quadratic (m : mat) (v : vec) : R := sum 3 (fun i => sum 3 (fun j => v i * m i j * v j)).
Definition positive_definite (m : mat) : Prop := forall v, nonzero v -> 0 < quadratic m v.

(** The Coulomb energy of electrons and nuclei, and the energy of electrons in the local
    potentials [u e a] of the atoms instead of -Z/r. *)
Definition pairs (n : nat) (f : nat -> nat -> R) : R := sum n (fun j => sum j (fun i => f i j)).
Definition coulomb (N natom : nat) (x : vec) (atoms : nat -> vec) (charges : nat -> R) (u : nat -> nat -> R) : R :=
  sum N (fun e => sum natom (fun a => u e a))
  + pairs N (fun i j => 1 / distance (electron x i) (electron x j))
  + pairs natom (fun i j => charges i * charges j / distance (atoms i) (atoms j)).

(** [v] interpolates the values [y k] at the points [p k], k <= n, linearly. *)
Definition linear_between (p y : nat -> R) (n : nat) (v : R -> R) : Prop :=
  forall k t, (k < n)%nat -> 0 <= t <= 1 -> v ((1 - t) * p k + t * p (S k)) = (1 - t) * y k + t * y (S k).

(** The quadratic form of the kinetic operator of one electron at [q]:
    1/2 |v|^2 + sum_a vL2(a) |(q - R_a) x v|^2. The operator is elliptic where it is positive
    for every v. *)
Definition cross_sq (d v : vec) : R :=
  (d 1%nat * v 2%nat - d 2%nat * v 1%nat) ^ 2 + (d 2%nat * v 0%nat - d 0%nat * v 2%nat) ^ 2 + (d 0%nat * v 1%nat - d 1%nat * v 0%nat) ^ 2.
Definition symbol (A : nat) (atoms : nat -> vec) (vl2 : nat -> R) (q v : vec) : R :=
  1 / 2 * sum 3 (fun i => v i ^ 2) + sum A (fun a => vl2 a * cross_sq (fun i => q i - atoms a i) v).
Definition elliptic (A : nat) (atoms : nat -> vec) (vl2 : nat -> R) (q : vec) : Prop :=
  forall v, nonzero v -> 0 < symbol A atoms vl2 q v.
