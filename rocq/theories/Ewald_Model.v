(** Model of /repo/src/jaqmc/estimator/ewald.py (EwaldSum 14-173, select_big_3d 176-200).

    Simplifications: exact real arithmetic; [erfc] is any function R -> R;
    [jnp.linalg.inv(latvec)] is the parameter [inv]; the minimum-image displacement of a
    pair is Geom_Model.distance. *)
From Coq Require Import Reals List Arith Bool ZArith.
From Verif Require Import Lin Geom_Model.
Import ListNotations.
Open Scope R_scope.

Definition zvec : Type := (Z * Z * Z).
(** jnp.arange(a, b) *)
Definition arange (a b : Z) : list Z := map (fun i => (a + Z.of_nat i)%Z) (seq 0 (Z.to_nat (b - a))).
(** jnp.meshgrid(..., indexing="ij"), flattened *)
Definition mesh (xs ys zs : list Z) : list zvec :=
  flat_map (fun x => flat_map (fun y => map (fun z => (x, y, z)) zs) ys) xs.

(** set_up_reciprocal_ewald_sum, lines 84-101: the three blocks of the half space *)
Definition half_space (g : Z) : list zvec :=
  (mesh (arange 1 (g + 1)) (arange (- g) (g + 1)) (arange (- g) (g + 1)) ++
   mesh [0%Z] (arange 1 (g + 1)) (arange (- g) (g + 1)) ++
   mesh [0%Z] [0%Z] (arange 1 (g + 1)))%list.

Definition det3 (l : mat) : R :=
  l 0%nat 0%nat * (l 1%nat 1%nat * l 2%nat 2%nat - l 1%nat 2%nat * l 2%nat 1%nat)
  - l 0%nat 1%nat * (l 1%nat 0%nat * l 2%nat 2%nat - l 1%nat 2%nat * l 2%nat 0%nat)
  + l 0%nat 2%nat * (l 1%nat 0%nat * l 2%nat 1%nat - l 1%nat 1%nat * l 2%nat 0%nat).
(** lines 77-81: [recvec = inv.T], [alpha = 5 / min (1 / |recvec_i|)] *)
Definition height (inv : mat) (i : nat) : R := 1 / norm 3 (fun k => inv k i).
Definition alpha (inv : mat) : R := 5 / Rmin (Rmin (height inv 0) (height inv 1)) (height inv 2).

(** select_big_3d, lines 192-200; line 76 for the volume *)
Definition gpoint (inv : mat) (g : zvec) : vec := fun k =>
  let '(a, b, c) := g in (IZR a * inv k 0%nat + IZR b * inv k 1%nat + IZR c * inv k 2%nat) * 2 * PI.
Definition gsquared (inv : mat) (g : zvec) : R := dot 3 (gpoint inv g) (gpoint inv g).
Definition gweight (l inv : mat) (g : zvec) : R :=
  4 * PI * exp (- gsquared inv g / (4 * alpha inv ^ 2)) / (det3 l * gsquared inv g).
Definition tol : R := / 1000000000000.
Definition big (l inv : mat) (g : zvec) : bool := if Rlt_dec tol (gweight l inv g) then true else false.
(** lines 102-105: the selected vectors of the three blocks, concatenated *)
Definition selected (l inv : mat) (gmax : Z) : list zvec := filter (big l inv) (half_space gmax).

Definition lsum {A} (f : A -> R) (l : list A) : R := fold_right (fun x s => f x + s) 0 l.
(** A charged particle. *)
Record particle := { pos : vec; charge : R }.
(** lines 162-164: |sum_j q_j exp(i G r_j)|^2 *)
Definition phase (inv : mat) (g : zvec) (r : vec) : R := dot 3 (gpoint inv g) r.
Definition structure2 (inv : mat) (ps : list particle) (g : zvec) : R :=
  lsum (fun p => charge p * cos (phase inv g (pos p))) ps ^ 2 + lsum (fun p => charge p * sin (phase inv g (pos p))) ps ^ 2.
Definition v_recip (l inv : mat) (gmax : Z) (ps : list particle) : R :=
  lsum (fun g => gweight l inv g * structure2 inv ps g) (selected l inv gmax).

(** lines 108, 110, 167, 170-171 *)
Definition v_self (inv : mat) (ps : list particle) : R := - alpha inv / sqrt PI * lsum (fun p => charge p ^ 2) ps.
Definition v_charged (l inv : mat) (ps : list particle) : R :=
  / 2 * (- PI / (det3 l * alpha inv ^ 2)) * lsum charge ps ^ 2.

(** set_lattice_displacements, lines 50-56 *)
Definition shift (l : mat) (k : zvec) : vec := fun j =>
  let '(a, b, c) := k in IZR a * l 0%nat j + IZR b * l 1%nat j + IZR c * l 2%nat j.
Definition images (nlat : Z) : list zvec := mesh (arange (- nlat) (nlat + 1)) (arange (- nlat) (nlat + 1)) (arange (- nlat) (nlat + 1)).
(** lines 143-145: the position of the shortest displacement *)
Fixpoint argmin_index (f : zvec -> R) (best : nat) (bestv : R) (i : nat) (l : list zvec) : nat :=
  match l with
  | [] => best
  | x :: l' => if Rlt_dec (f x) bestv then argmin_index f i (f x) (S i) l' else argmin_index f best bestv (S i) l'
  end.
Definition center_index (l : mat) (nlat : Z) : nat :=
  match images nlat with
  | [] => 0%nat
  | x :: rest => argmin_index (fun k => norm 3 (shift l k)) 0 (norm 3 (shift l x)) 1 rest
  end.
(** line 156 *)
Definition r_safe (r : R) : R := if Rlt_dec r (/ 10000000) then / 10000000 else r.
Definition indexed {A} (l : list A) : list (nat * A) := combine (seq 0 (List.length l)) l.
(** lines 132-159: [mask] drops i = j at the centre image *)
Definition v_real (erfc : R -> R) (l inv : mat) (nlat : Z) (ps : list particle) : R :=
  let pot (r : R) := erfc (alpha inv * r_safe r) / r_safe r in
  / 2 * lsum (fun nk => lsum (fun ip => lsum (fun jq =>
      let disp := fst (distance 3 inv l (fun d => pos (snd ip) d - pos (snd jq) d)) in
      charge (snd ip) * charge (snd jq) * pot (norm 3 (fun d => disp d + shift l (snd nk) d)) *
      (if Nat.eqb (fst nk) (center_index l nlat) then 1 - delta (fst ip) (fst jq) else 1))
    (indexed ps)) (indexed ps)) (indexed (images nlat)).

(** energy, lines 112-173 *)
Definition energy (erfc : R -> R) (l inv : mat) (gmax nlat : Z) (ps : list particle) : R :=
  v_real erfc l inv nlat ps + v_recip l inv gmax ps + v_self inv ps + v_charged l inv ps.
