(** Model of the pseudo-Hamiltonian (PH) energy estimator: estimator/ph/estimator.py,
    estimator/ph/_forward_laplacian.py, estimator/ph/_standard.py, estimator/ph/data.py.

    Arrays are functions of their indices; the electron array of shape (N, 3) is flattened
    (coordinate [i] of electron [e] is [x (3*e+i)]), as [electrons.reshape(-1)] does. Floats
    are reals; [None] stands for NaN. Automatic differentiation is not modelled: the gradient,
    the Hessian and the result of the forward-Laplacian pass are arguments (C38 is about the
    pass). *)
From Coq Require Import Reals List Arith ClassicalDedekindReals.
From Coquelicot Require Import Coquelicot.
From Verif Require Import Lin.
Import ListNotations.
Open Scope R_scope.

(** inv_r = jnp.where(r > 0, 1.0 / r, 0.0): _forward_laplacian.py 135, 167; _standard.py 310. *)
Definition inv_r (r : R) : R := if Rlt_dec 0 r then 1 / r else 0.

(** rel, r: _forward_laplacian.py 131-132, 165-166; _standard.py 306-307. *)
Definition rel (p : vec) (atoms : nat -> vec) (a : nat) : vec := fun i => p i - atoms a i.
Definition rad (p : vec) (atoms : nat -> vec) (a : nat) : R := norm 3 (rel p atoms a).

(** _mass_matrix_for_electron: _forward_laplacian.py 107-139. *)
Definition mass_fwd (A : nat) (p : vec) (atoms : nat -> vec) (l2 : nat -> R) : mat := fun i j =>
  (1 / 2) * delta i j
  + sum A (fun a => l2 a * (rad p atoms a * delta i j - rel p atoms a i * rel p atoms a j * inv_r (rad p atoms a))).

(** _first_order_vector_for_electron: _forward_laplacian.py 142-168. *)
Definition first_fwd (A : nat) (p : vec) (atoms : nat -> vec) (l2 : nat -> R) : vec := fun i =>
  sum A (fun a => 2 * l2 a * inv_r (rad p atoms a) * rel p atoms a i).

(** jnp.linalg.cholesky of a 3x3 matrix (_forward_laplacian.py 82): the input is symmetrized,
    the factor is computed column by column; a pivot that is not positive gives NaN. *)
Definition sym (m : mat) : mat := fun i j => (m i j + m j i) / 2.
Definition chol_entry (l00 l10 l20 l11 l21 l22 : R) : mat := fun i j =>
  match i, j with
  | 0%nat, 0%nat => l00
  | 1%nat, 0%nat => l10 | 1%nat, 1%nat => l11
  | 2%nat, 0%nat => l20 | 2%nat, 1%nat => l21 | 2%nat, 2%nat => l22
  | _, _ => 0
  end.
Definition cholesky (m0 : mat) : option mat :=
  let m := sym m0 in
  let d0 := m 0%nat 0%nat in
  if Rlt_dec 0 d0 then
    let l00 := sqrt d0 in let l10 := m 1%nat 0%nat / l00 in let l20 := m 2%nat 0%nat / l00 in
    let d1 := m 1%nat 1%nat - l10 * l10 in
    if Rlt_dec 0 d1 then
      let l11 := sqrt d1 in let l21 := (m 2%nat 1%nat - l20 * l10) / l11 in
      let d2 := m 2%nat 2%nat - l20 * l20 - l21 * l21 in
      if Rlt_dec 0 d2 then Some (chol_entry l00 l10 l20 l11 l21 (sqrt d2)) else None
    else None
  else None.

(** The stack over electrons (jax.vmap, _forward_laplacian.py 79-82): NaN in one electron's
    block makes every later sum over electrons NaN. *)
Fixpoint stack (N : nat) (f : nat -> option mat) : option (nat -> mat) :=
  match N with
  | O => Some (fun _ _ _ => 0)
  | S k => match stack k f, f k with
           | Some F, Some m => Some (fun e => if Nat.eqb e k then m else F e)
           | _, _ => None
           end
  end.
Definition pos (x : vec) (e : nat) : vec := fun i => x (3 * e + i)%nat.
Definition chol_fwd (N A : nat) (x : vec) (atoms : nat -> vec) (l2 : nat -> nat -> R) : option (nat -> mat) :=
  stack N (fun e => cholesky (mass_fwd A (pos x e) atoms (l2 e))).

(** shifted_logpsi: _forward_laplacian.py 202-204 (einsum "eij,ej->ei"). *)
Definition shifted (L : nat -> mat) (f : vec -> R) (x : vec) (y : vec) : R :=
  f (fun k => x k + sum 3 (fun j => L (k / 3)%nat (k mod 3)%nat j * y (3 * (k / 3) + j)%nat)).

(** _second_order_term, from the result (Jacobian, Laplacian) of the pass over
    [shifted]: _forward_laplacian.py 206-215, real case of vdot. *)
Definition second_fwd (N : nat) (jac : vec) (lap : R) : R := - (lap + sum (3 * N) (fun k => jac k * jac k)).

(** first_order_term: _forward_laplacian.py 99-102. *)
Definition first_term_fwd (N A : nat) (x : vec) (atoms : nat -> vec) (l2 : nat -> nat -> R) (g : vec) : R :=
  sum N (fun e => sum 3 (fun i => first_fwd A (pos x e) atoms (l2 e) i * g (3 * e + i)%nat)).

(** compute_derivative_energy: _forward_laplacian.py 40-104. [pass L] is the result of the
    forward-Laplacian pass over the map shifted by [L]; [g] is _logpsi_gradient. *)
Definition energy_fwd (N A : nat) (x : vec) (atoms : nat -> vec) (l2 : nat -> nat -> R) (g : vec) (pass : (nat -> mat) -> vec * R) : option R :=
  match chol_fwd N A x atoms l2 with
  | Some L => Some (second_fwd N (fst (pass L)) (snd (pass L)) + first_term_fwd N A x atoms l2 g)
  | None => None
  end.

(** jnp.linalg.eigvalsh(full) > 0 for all eigenvalues: _standard.py 317-323. *)
Definition eigenvalue (m : mat) (lam : R) : Prop :=
  exists v : vec, (exists i, (i < 3)%nat /\ v i <> 0) /\ forall i, (i < 3)%nat -> sum 3 (fun j => m i j * v j) = lam * v i.
Definition all_positive (m : mat) : Prop := forall lam, eigenvalue m lam -> 0 < lam.

(** _build_second_order_matrix_single: _standard.py 297-323 (the matrix before the test for
    positive eigenvalues, then the test). *)
Definition full_std (A : nat) (p : vec) (atoms : nat -> vec) (l2 : nat -> R) : mat := fun i j =>
  sum A (fun a => l2 a * (rad p atoms a * delta i j - rel p atoms a i * rel p atoms a j * inv_r (rad p atoms a)))
  + (1 / 2) * delta i j.
Definition mass_std (A : nat) (p : vec) (atoms : nat -> vec) (l2 : nat -> R) : option mat :=
  if sig_not_dec (all_positive (full_std A p atoms l2)) then Some (full_std A p atoms l2) else None.

(** _evaluate_ph_first_order_vector_single: _standard.py 326-347. jacfwd of the matrix as a
    function of the position with the l2 values held fixed, contracted by "jkj->k". The
    derivative of the branch of jnp.where that is taken where the matrix is positive
    definite; elsewhere the energy is NaN whatever this returns. *)
Definition move (p : vec) (j : nat) (t : R) : vec := fun i => if Nat.eqb i j then p i + t else p i.
Definition first_std (A : nat) (p : vec) (atoms : nat -> vec) (l2 : nat -> R) : vec := fun k =>
  - sum 3 (fun j => Derive (fun t => full_std A (move p j t) atoms l2 j k - (1 / 2) * delta j k) 0).

(** compute_derivative_energy: _standard.py 39-120; einsums "eij,eji->", "ei,eij,ej->",
    "ei,ei->"; hessian blocks 142-167. *)
Definition energy_std (N A : nat) (x : vec) (atoms : nat -> vec) (l2 : nat -> nat -> R) (g : vec) (h : mat) : option R :=
  match stack N (fun e => mass_std A (pos x e) atoms (l2 e)) with
  | Some M => Some (- (sum N (fun e => sum 3 (fun i => sum 3 (fun j => M e i j * h (3 * e + j)%nat (3 * e + i)%nat)))
                       + sum N (fun e => sum 3 (fun i => sum 3 (fun j => g (3 * e + i)%nat * M e i j * g (3 * e + j)%nat))))
                    + sum N (fun e => sum 3 (fun i => g (3 * e + i)%nat * first_std A (pos x e) atoms (l2 e) i)))
  | None => None
  end.

(** ** Radial tables *)

(** self._radial_grid = jnp.linspace(0.0, 10.0, n) with n = last + 1 points: estimator.py 93. *)
Definition grid (last k : nat) : R := 10 * INR k / INR last.

(** jnp.interp over that grid (library function, estimator.py 182-191): the right
    [searchsorted], clipped to [1, last], the segment's linear formula, the end values
    outside. *)
Fixpoint count_le (last : nat) (r : R) (n : nat) : nat :=
  match n with O => O | S k => (count_le last r k + (if Rle_dec (grid last k) r then 1 else 0))%nat end.
Definition interp (last : nat) (tab : nat -> R) (r : R) : R :=
  let i := Nat.min (Nat.max (count_le last r (S last)) 1) last in
  let v := tab (i - 1)%nat + (r - grid last (i - 1)) / (grid last i - grid last (i - 1)) * (tab i - tab (i - 1)%nat) in
  if Rlt_dec r (grid last 0) then tab O else if Rlt_dec (grid last last) r then tab last else v.

(** _interpolate_radial_values: estimator.py 171-191 (one table per PH atom). *)
Definition radial (last : nat) (tabs : nat -> nat -> R) (x : vec) (atoms : nat -> vec) : nat -> nat -> R :=
  fun e a => interp last (tabs a) (rad (pos x e) atoms a).

(** _evaluate_zero_order_term: estimator.py 220-239 (infinite at r = 0, which the theorems
    exclude). *)
Definition zero_order (N A : nat) (x : vec) (atoms : nat -> vec) (loc : nat -> nat -> R) : R :=
  sum N (fun e => sum A (fun a => loc e a / rad (pos x e) atoms a)).

(** _reconstruct_paper_ph_data, one grid point: data.py 165-210. [ch l] is the channel l in
    the r*V convention and [M] is l-local. *)
Definition reconstruct (M : nat) (ch : nat -> R) : R * R :=
  match M with
  | O => (ch O, 0)
  | _ => let l2 := sum M (fun l => (ch l - ch M) / (INR (l * (l + 1)) - INR (M * (M + 1)))) / INR M in
         (ch M - INR (M * (M + 1)) * l2, l2)
  end.
(** _load_ph_data_from_xml adds the valence charge to the local table: data.py 147-152. *)
Definition load (charge : R) (M : nat) (ch : nat -> nat -> R) : (nat -> R) * (nat -> R) :=
  (fun k => fst (reconstruct M (fun l => ch l k)) + charge, fun k => snd (reconstruct M (fun l => ch l k))).

(** _resolve_ph_atom_indices, the selected indices: estimator.py 114-118. Symbols are
    numbers here. *)
Definition ph_indices (natom : nat) (in_ph : nat -> bool) : list nat := filter in_ph (seq 0 natom).

(** potential_energy: app/molecule/hamiltonian.py 11-22, with pair_displacements_between and
    pair_displacements_within (geometry/obc.py 9-87): the diagonal of the distances within a
    species is 0, and 1 after adding jnp.eye; jnp.triu(., k=1). *)
Definition within (d : nat -> vec) (i j : nat) : R :=
  norm 3 (fun c => d i c - d j c + delta i j) * (1 - delta i j) + delta i j.
Definition triu1 (i j : nat) (v : R) : R := if Nat.ltb i j then v else 0.
Definition potential (N natom : nat) (x : vec) (atoms : nat -> vec) (charges : nat -> R) : R :=
  sum N (fun e => sum natom (fun a => - (1) * charges a / rad (pos x e) atoms a))
  + sum N (fun i => sum N (fun j => triu1 i j (1 / within (pos x) i j)))
  + sum natom (fun i => sum natom (fun j => triu1 i j (charges j * charges i / within atoms i j))).

(** Atom(symbol, charge=..., pp="ph"): utils/atomic/atom.py 31-50. The charge of an atom
    with [core] core electrons; None is ValueError. *)
Definition atom_charge (number core : nat) (ph : bool) (custom : option nat) : option nat :=
  match custom with
  | Some c => if andb (negb (Nat.eqb (c + core) number)) ph then None else Some c
  | None => Some (number - core)%nat
  end.
