(** Model of /repo/src/jaqmc/estimator/density/fractional.py (FractionalAxis 17-27, FractionalDensity 31-79) as
    wired by /repo/src/jaqmc/app/solid/workflow.py lines 255-269.

    Simplifications: exact real arithmetic; one electron at a time; [jnp.linalg.inv] of the
    supercell lattice is [inv] (the theorems assume it is the inverse). *)
From Coq Require Import Reals List Arith Bool ZArith.
From Verif Require Import Lin.
Import ListNotations.
Open Scope R_scope.

(** lines 26-27 *)
Record axis := { lattice_index : nat; nbins : nat }.
(** Python's [sorted] with a key: stable insertion. *)
Fixpoint insert (a : axis) (l : list axis) : list axis :=
  match l with
  | [] => [a]
  | b :: l' => if Nat.leb (lattice_index a) (lattice_index b) then a :: l else b :: insert a l'
  end.
Fixpoint sort_axes (l : list axis) : list axis := match l with [] => [] | a :: l' => insert a (sort_axes l') end.
(** _sorted_axes, lines 62-66: the enabled axes by lattice index *)
Definition sorted_axes (axes : list (option axis)) : list axis :=
  sort_axes (flat_map (fun a => match a with Some x => [x] | None => [] end) axes).
(** _histogram_spec, lines 68-74 *)
Definition histogram_spec (axes : list (option axis)) : list nat * list (R * R) :=
  (map nbins (sorted_axes axes), map (fun _ => (0, 1)) (sorted_axes axes)).
(** extract, lines 76-79: [r @ inv_lattice.T % 1.0], then the selected columns *)
Definition fractional (n : nat) (inv : mat) (r : vec) (j : nat) : R := rmod (sum n (fun i => r i * inv j i)) 1.
Definition extract (n : nat) (inv : mat) (axes : list (option axis)) (r : vec) : list R :=
  map (fun a => fractional n inv r (lattice_index a)) (sorted_axes axes).
