(** Model of /repo/src/jaqmc/geometry/pbc.py (wrap_positions 97-111, build_distance_fn
    114-184, make_pbc_gaussian_proposal 187-201, scaled_f/scaled_g 204-237, nu_distance
    240-279, tri_distance 282-324, get_distance_function 327-344, get_symmetry_lat 347-381) and of
    /repo/src/jaqmc/wavefunction/input/atomic.py SolidFeatures (82-150).

    Simplifications: exact real arithmetic, any dimension n; [jnp.linalg.inv(lattice)] is
    passed as [inv] (theorems assume it is the inverse, [Lin.inverse]); one pair of
    particles at a time instead of batched arrays; the images of the general branch are
    listed with the last index fastest, so equal distances may be broken differently from
    [meshgrid]'s order. *)
From Coq Require Import Reals List Arith Bool ZArith Lra.
From Verif Require Import Lin.
Import ListNotations.
Open Scope R_scope.

(** wrap_positions, lines 108-111 *)
Definition wrap_positions (n : nat) (inv lattice : mat) (r : vec) : vec :=
  vecmat n (fun i => rmod (vecmat n r inv i) 1) lattice.

(** lines 197-199: the Gaussian step [d] = draw * stddev, then the wrap *)
Definition pbc_proposal (n : nat) (inv lattice : mat) (d x : vec) : vec :=
  wrap_positions n inv lattice (fun i => x i + d i).

(** ** build_distance_fn *)
Definition ortho_tol : R := / 10000000000.
Definition rltb (a b : R) : bool := if Rlt_dec a b then true else false.
Definition rleb (a b : R) : bool := if Rle_dec a b then true else false.
Definition forall_below (n : nat) (p : nat -> bool) : bool := forallb p (seq 0 n).
(** lines 128-130 *)
Definition is_diagonal (n : nat) (l : mat) : bool :=
  forall_below n (fun i => forall_below n (fun j => rltb (Rabs (l i j - (if Nat.eqb i j then l i i else 0))) ortho_tol)).
(** lines 136-140: [triu] keeps the entries with i <= j, the diagonal included *)
Definition is_orthogonal (n : nat) (l : mat) : bool :=
  forall_below n (fun i => forall_below n (fun j =>
    rleb (Rabs (if Nat.leb i j then sum n (fun k => l i k * l j k) else 0)) ortho_tol)).

(** [jnp.argmin]: the first smallest *)
Fixpoint argmin_by {A} (f : A -> R) (best : A) (l : list A) : A :=
  match l with
  | [] => best
  | x :: l' => if Rlt_dec (f x) (f best) then argmin_by f x l' else argmin_by f best l'
  end.
(** lines 170-172: all shifts with coordinates -1, 0, 1 *)
Fixpoint points (n : nat) : list (nat -> Z) :=
  match n with
  | O => [fun _ => 0%Z]
  | S k => flat_map (fun p => map (fun z i => if Nat.eqb i k then z else p i) [(-1)%Z; 0%Z; 1%Z]) (points k)
  end.

(** lines 143-184: displacement and distance for a difference [diff = ra - rb] *)
Definition distance (n : nat) (inv l : mat) (diff : vec) : vec * R :=
  let disp :=
    if is_diagonal n l then fun i => rmod (diff i + l i i / 2) (l i i) - l i i / 2
    else if is_orthogonal n l then
      vecmat n (fun i => rmod (vecmat n diff inv i + /2) 1 - /2) l
    else
      let image (p : nat -> Z) := fun j => diff j + vecmat n (fun i => IZR (p i)) l j in
      match map image (points n) with
      | [] => diff
      | x :: rest => argmin_by (norm n) x rest
      end in
  (disp, norm n disp).

(** ** Periodic distances *)
(** lines 218, 235-237 *)
Definition scaled_f (w : R) : R := Rabs w * (1 - Rabs (w / PI) ^ 3 / 4).
Definition scaled_g (w : R) : R := w * (1 - 3 / 2 * Rabs (w / PI) + 1 / 2 * Rabs (w / PI) ^ 2).
(** line 268: projections on the m vectors b *)
Definition proj (n : nat) (x : vec) (b : nat -> vec) (l : nat) : R := sum n (fun k => x k * b l k).
(** lines 269-270 *)
Definition wrap_w (w : R) : R := w - IZR (floor ((w + PI) / (2 * PI))) * 2 * PI.
(** nu_distance, lines 268-279 *)
Definition nu_squared (n m : nat) (x : vec) (a b : nat -> vec) : R :=
  let w l := wrap_w (proj n x b l) in
  sum m (fun l => (norm n (a l) * scaled_f (w l)) ^ 2) +
  sum m (fun i => sum m (fun j => dot n (a i) (a j) * (scaled_g (w i) * scaled_g (w j)) * (1 - delta i j))).
Definition nu_distance (n m : nat) (x : vec) (a b : nat -> vec) : R * vec :=
  (sqrt (nu_squared n m x a b),
   fun j => sum m (fun l => scaled_g (wrap_w (proj n x b l)) * a l j)).
(** tri_distance, lines 313-324; the relative coordinates are the sine part (components
    below n) followed by the cosine part *)
Definition tri_squared (n m : nat) (x : vec) (a b : nat -> vec) : R :=
  let w l := proj n x b l in
  sum m (fun i => sum m (fun j =>
    ((1 - cos (w i)) * (1 - cos (w j)) + sin (w i) * sin (w j)) * dot n (a i) (a j))).
Definition tri_distance (n m : nat) (x : vec) (a b : nat -> vec) : R * vec :=
  (sqrt (tri_squared n m x a b),
   fun j => if Nat.ltb j n then sum m (fun l => sin (proj n x b l) * a l j)
            else sum m (fun l => cos (proj n x b l) * a l (j - n)%nat)).
Inductive distance_type := Tri | Nu.
(** lines 327-344 *)
Definition distance_function (t : distance_type) := match t with Tri => tri_distance | Nu => nu_distance end.

(** get_symmetry_lat, lines 365-381: the rows of the integer matrix (dimension 3; the
    identity in any other dimension) *)
Inductive symmetry := Minimal | Fcc | Bcc | Hexagonal.
Definition extra_rows (s : symmetry) : list (list Z) :=
  match s with
  | Minimal => []
  | Fcc => [[1; 1; 1]]
  | Bcc => [[1; -1; 0]; [1; 0; -1]; [0; 1; -1]]
  | Hexagonal => [[-1; -1; 0]]
  end%Z.
Definition sym_rows (s : symmetry) : list (list Z) := ([[1; 0; 0]; [0; 1; 0]; [0; 0; 1]]%Z ++ extra_rows s)%list.
Definition sym_matrix (n : nat) (s : symmetry) (l i : nat) : Z :=
  if Nat.eqb n 3 then nth i (nth l (sym_rows s) []) 0%Z else (if Nat.eqb l i then 1 else 0)%Z.
Definition sym_count (n : nat) (s : symmetry) : nat := if Nat.eqb n 3 then List.length (sym_rows s) else n.
(** lines 365, 379: bv = mat @ (2 pi inv(lattice).T); av = pinv(bv).T is a parameter of the theorems *)
Definition sym_b (n : nat) (inv : mat) (s : symmetry) (l k : nat) : R :=
  sum n (fun i => IZR (sym_matrix n s l i) * (2 * PI * inv k i)).

(** ** SolidFeatures.__call__, atomic.py lines 118-140 *)
Record cell := { lattice : mat; invl : mat; av : nat -> vec; bv : nat -> vec; nvec : nat }.
Definition ae_features (n : nat) (t : distance_type) (prim : cell) (electrons atoms : nat -> vec) (i j : nat) : R * vec :=
  distance_function t n (nvec prim)
    (fun k => wrap_positions n (invl prim) (lattice prim) (electrons i) k - atoms j k) (av prim) (bv prim).
Definition ee_features (n : nat) (t : distance_type) (sim : cell) (electrons : nat -> vec) (i j : nat) : R * vec :=
  let w e := wrap_positions n (invl sim) (lattice sim) (electrons e) in
  let d := distance_function t n (nvec sim) (fun k => w i k - w j k + delta i j) (av sim) (bv sim) in
  (fst d * (1 - delta i j), fun k => snd d k * (1 - delta i j)).
