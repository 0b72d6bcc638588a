(** Model of /repo/src/jaqmc/estimator/density/cartesian.py (CartesianAxis 17-31, CartesianDensity 34-70),
    density/spherical.py (SphericalDensity 16-47), estimator/histogram.py 75-80 and 99-103 (shape, values), and
    /repo/src/jaqmc/app/molecule/workflow.py 203-218 (default axes). Counting itself is Est_Model.v
    (counts, hist_run). Simplifications: exact real arithmetic (edges of jnp.linspace, norm); 3-dimensional
    positions; [None] is NaN. *)
From Coq Require Import Reals List Arith.
From Verif Require Import Lin Est_Model.
Import ListNotations.
Open Scope R_scope.

(** edges jnp.histogramdd uses for (bins, range): jnp.linspace(lo, hi, bins + 1) *)
Definition linspace (lo hi : R) (bins : nat) : list R := map (fun i => lo + (hi - lo) * INR i / INR bins) (seq 0 (bins + 1)).

(** ** cartesian.py. lines 29-31 *)
Record axis := { direction : vec; bins : nat; low : R; high : R }.
(** 57-58 _sorted_axes: values that are not None, in the order of the dict *)
Definition sorted_axes (axes : list (option axis)) : list axis := flat_map (fun a => match a with Some x => [x] | None => [] end) axes.
(** 60-66 _histogram_spec *)
Definition cart_spec (axes : list (option axis)) : list nat * list (R * R) :=
  (map bins (sorted_axes axes), map (fun a => (low a, high a)) (sorted_axes axes)).
(** 68-72 extract, for one electron at [r]; 0/0 is NaN *)
Definition normalised (d : vec) : option vec := if Req_EM_T (norm 3 d) 0 then None else Some (fun i => d i / norm 3 d).
Definition cart_extract (axes : list (option axis)) (r : vec) : list nv :=
  map (fun a => match normalised (direction a) with None => None | Some u => Some (dot 3 r u) end) (sorted_axes axes).
(** the histogram's dimensions *)
Definition dims (spec : list nat * list (R * R)) : list (list R) :=
  map (fun p => linspace (fst (snd p)) (snd (snd p)) (fst p)) (combine (fst spec) (snd spec)).
(** histogram.py 99-103: all electrons of all walkers on a device, one row each *)
Definition cart_values (axes : list (option axis)) (walkers : list (list vec)) : list (list nv) :=
  map (cart_extract axes) (concat walkers).

(** ** workflow.py 203-218 *)
Definition minimum (l : list R) : R := match l with [] => 0 | x :: r => fold_left Rmin r x end.
Definition maximum (l : list R) : R := match l with [] => 0 | x :: r => fold_left Rmax r x end.
Definition default_axes (atoms : list vec) : list (option axis) :=
  map (fun idx => Some {| direction := fun i => if Nat.eqb i idx then 1 else 0; bins := 50;
                          low := minimum (map (fun a => a idx) atoms) - 5; high := maximum (map (fun a => a idx) atoms) + 5 |}) [0; 1; 2]%nat.

(** ** spherical.py 35-47 *)
Definition sph_spec (bins_theta : nat) (bins_phi : option nat) : list nat * list (R * R) :=
  match bins_phi with
  | None => ([bins_theta], [(0, PI)])
  | Some b => ([bins_theta; b], [(0, PI); (- PI, PI)])
  end.
Definition sph_extract (bins_phi : option nat) (x : R * R) : list nv :=
  match bins_phi with None => [Some (fst x)] | Some _ => [Some (fst x); Some (snd x)] end.
Definition sph_values (bins_phi : option nat) (walkers : list (list (R * R))) : list (list nv) :=
  map (sph_extract bins_phi) (concat walkers).
