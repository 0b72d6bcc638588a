(** Model of /repo/src/jaqmc/utils/supercell.py: get_supercell_copies (lines 88-120) and
    get_supercell_kpts (lines 25-85).

    Simplifications: exact rational arithmetic; [jnp.linalg.inv(S)] is the adjugate over the
    determinant; translations and k-points are given by their coordinates in the primitive
    (reciprocal) basis, before the last product with [latvec] /
    [original_reciprocal_vectors]. *)
From Coq Require Import ZArith QArith List Bool.
Import ListNotations.
Open Scope Z_scope.

Record vec := V { vx : Z; vy : Z; vz : Z }.
(** A matrix by its rows. *)
Record mat := M { r1 : vec; r2 : vec; r3 : vec }.

(** row vector times matrix *)
Definition vmul (v : vec) (s : mat) : vec :=
  V (vx v * vx (r1 s) + vy v * vx (r2 s) + vz v * vx (r3 s))
    (vx v * vy (r1 s) + vy v * vy (r2 s) + vz v * vy (r3 s))
    (vx v * vz (r1 s) + vy v * vz (r2 s) + vz v * vz (r3 s)).
Definition transpose (s : mat) : mat :=
  M (V (vx (r1 s)) (vx (r2 s)) (vx (r3 s))) (V (vy (r1 s)) (vy (r2 s)) (vy (r3 s))) (V (vz (r1 s)) (vz (r2 s)) (vz (r3 s))).
Definition det (s : mat) : Z :=
  let (a, b, c) := r1 s in let (d, e, f) := r2 s in let (g, h, i) := r3 s in
  a * (e * i - f * h) - b * (d * i - f * g) + c * (d * h - e * g).
Definition adj (s : mat) : mat :=
  let (a, b, c) := r1 s in let (d, e, f) := r2 s in let (g, h, i) := r3 s in
  M (V (e * i - f * h) (c * h - b * i) (b * f - c * e))
    (V (f * g - d * i) (a * i - c * g) (c * d - a * f))
    (V (d * h - e * g) (b * g - a * h) (a * e - b * d)).

(** m / d for d <> 0 *)
Definition frac (d m : Z) : Q := (m * Z.sgn d) # Z.to_pos (Z.abs d).
(** n @ inv(S) *)
Definition fractional (s : mat) (n : vec) : Q * Q * Q :=
  let m := vmul n (adj s) in (frac (det s) (vx m), frac (det s) (vy m), frac (det s) (vz m)).

(** The corners of the unit box times a matrix (lines 60-65 and 102-105). *)
Definition corners (s : mat) : list vec :=
  flat_map (fun x => flat_map (fun y => map (fun z => vmul (V x y z) s) [0; 1]) [0; 1]) [0; 1].
Definition lmin (l : list Z) : Z := match l with [] => 0 | x :: l' => fold_right Z.min x l' end.
Definition lmax (l : list Z) : Z := match l with [] => 0 | x :: l' => fold_right Z.max x l' end.
(** jnp.arange(a, b) *)
Definition arange (a b : Z) : list Z := map (fun i => a + Z.of_nat i) (seq 0 (Z.to_nat (b - a))).
Definition mesh (xs ys zs : list Z) : list vec :=
  flat_map (fun x => flat_map (fun y => map (fun z => V x y z) zs) ys) xs.

Definition tol : Q := 1 # 100000.
Definition in01 (q : Q) : bool := Qle_bool (- tol) q && negb (Qle_bool (1 - tol) q).
Definition in_unit_box (f : Q * Q * Q) : bool :=
  let '(a, b, c) := f in in01 a && in01 b && in01 c.

(** get_supercell_copies, lines 100-120: integer coordinates of the translations. *)
Definition supercell_copies (s : mat) : list vec :=
  let cs := corners s in
  let pts := mesh (arange (lmin (map vx cs)) (lmax (map vx cs)))
                  (arange (lmin (map vy cs)) (lmax (map vy cs)))
                  (arange (lmin (map vz cs)) (lmax (map vz cs))) in
  filter (fun n => in_unit_box (fractional s n)) pts.

(** jnp.mod(q, 1.0) *)
Definition qmod1 (q : Q) : Q := (Qnum q mod Z.pos (Qden q)) # Qden q.
(** get_supercell_kpts, lines 58-85: coordinates in the reciprocal basis. *)
Definition supercell_kpts (s : mat) : list (Q * Q * Q) :=
  let cs := corners (transpose s) in
  let pts := mesh (arange (lmin (map vx cs)) (lmax (map vx cs) + 1))
                  (arange (lmin (map vy cs)) (lmax (map vy cs) + 1))
                  (arange (lmin (map vz cs)) (lmax (map vz cs) + 1)) in
  let k := filter in_unit_box (map (fractional s) pts) in
  map (fun f => let '(a, b, c) := f in (qmod1 a, qmod1 b, qmod1 c)) k.
