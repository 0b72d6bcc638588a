(** The k-points of the solid wavefunction: /repo/src/jaqmc/utils/supercell.py get_reciprocal_vectors (11-22)
    and the last product of get_supercell_kpts (84-85), app/solid/config/base.py supercell_lattice (138-140),
    app/solid/workflow.py make_scf (194-203), run (103-105, 136-138), utils/atomic/scf.py get_orbital_kpoints
    (664-701).

    Simplifications: exact reals; [jnp.linalg.inv] is a parameter, which the theorems assume to be the
    inverse; the numbers of occupied orbitals per k-point, which PySCF finds, are parameters. *)
From Coq Require Import Reals List Arith ZArith QArith Qreals.
From Verif Require Import Lin Geom_Model.
From Verif Require Supercell_Model.
Import ListNotations.
Open Scope R_scope.
Local Notation vec := Lin.vec.
Local Notation mat := Lin.mat.

(** get_reciprocal_vectors, line 22: 2 pi inv(lattice).T *)
Definition reciprocal_vectors (inv : mat) : mat := fun i k => 2 * PI * inv k i.
(** an integer 3x3 matrix as a real one *)
Definition vec_entry (v : Supercell_Model.vec) (j : nat) : Z :=
  match j with O => Supercell_Model.vx v | 1%nat => Supercell_Model.vy v | _ => Supercell_Model.vz v end.
Definition mat_entry (s : Supercell_Model.mat) (i j : nat) : Z :=
  vec_entry (match i with O => Supercell_Model.r1 s | 1%nat => Supercell_Model.r2 s | _ => Supercell_Model.r3 s end) j.
(** supercell_lattice: supercell_matrix @ lattice_vectors *)
Definition supercell_lattice (s : Supercell_Model.mat) (l : mat) : mat := fun i j => sum 3 (fun p => IZR (mat_entry s i p) * l p j).
(** get_supercell_kpts, lines 84-85 *)
Definition of_frac (f : Q * Q * Q) : vec := fun i => match i with O => Q2R (fst (fst f)) | 1%nat => Q2R (snd (fst f)) | _ => Q2R (snd f) end.
Definition folding_kpts (s : Supercell_Model.mat) (rec : mat) : list vec :=
  map (fun f => vecmat 3 (of_frac f) rec) (Supercell_Model.supercell_kpts s).
(** make_scf, lines 197-203 *)
Definition scf_kpts (s : Supercell_Model.mat) (twist : vec) (prim_inv sim_inv : mat) : list vec :=
  let k_twist := vecmat 3 twist (reciprocal_vectors sim_inv) in
  map (fun k j => k j + k_twist j) (folding_kpts s (reciprocal_vectors prim_inv)).
(** jnp.repeat(k_indices, counts), lines 696-699 *)
Definition repeat_each {A} (kpts : list A) (counts : list nat) : list A := flat_map (fun p => repeat (fst p) (snd p)) (combine kpts counts).
(** get_orbital_kpoints, lines 688-701: alpha orbitals first, then beta; workflow.run: wf.klist *)
Definition orbital_kpoints (kpts : list vec) (alpha beta : list nat) : list vec := repeat_each kpts alpha ++ repeat_each kpts beta.
Definition klist_of (ks : list vec) : nat -> vec := fun j => nth j ks (fun _ => 0).
