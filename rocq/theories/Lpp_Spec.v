(** C89: what the local energy of the legacy package is, stated with nothing of the code.

    Kinetic and Coulomb energies are those of [Kin_Spec] and [Ph_Spec], the pseudo-Hamiltonian operator that of
    [Ph_Spec], radial potentials those of [Ecp_Spec].  Here: Legendre polynomials of every degree, angular momentum
    components of a real function on a sphere, and the semi-local energy. *)
From Coq Require Import Reals List Arith ZArith Permutation Sorted.
From Coquelicot Require Import Coquelicot.
From Verif Require Import Quad_Spec Ecp_Spec.
Import ListNotations.
Open Scope R_scope.
Local Notation vec := Quad_Spec.vec.
Local Notation S := Datatypes.S.

(** Legendre polynomials by Bonnet's recursion: (l+1) P_(l+1) = (2l+1) x P_l - l P_(l-1); the pair is (P_l, P_(l+1)) *)
Fixpoint legendre_pair (l : nat) (x : R) : R * R :=
  match l with
  | O => (1, x)
  | S k => let (a, b) := legendre_pair k x in (b, ((2 * INR l + 1) * x * b - INR l * a) / (INR l + 1))
  end.
Definition legendre_polynomial (l : nat) (x : R) : R := fst (legendre_pair l x).
(** [v] is the component of angular momentum l, in the direction n, of the function f on the unit sphere *)
Definition angular_component (l : nat) (n : vec) (f : vec -> R) (v : R) : Prop :=
  sphere_integral (fun x y z => (2 * INR l + 1) / (4 * PI) * legendre_polynomial l (vdot (x, y, z) n) * f (x, y, z)) v.
(** on the unit sphere f is a polynomial of degree at most d *)
Definition sphere_poly (d : nat) (f : vec -> R) : Prop := exists g, Poly d g /\ forall p, vdot p p = 1 -> f p = at_pt g p.

(** Radial tables whose channels are listed as local, s, p, d, ... with none missing *)
Definition in_order (t : table) : Prop := map fst t = map (fun i => Z.of_nat i - 1)%Z (seq 0 (length t)).

(** [n] is the largest number of channels of a collection of tables *)
Definition most_channels {A} (d : list (A * table)) (n : nat) : Prop := (exists e, In e d /\ length (snd e) = n) /\ forall e, In e d -> (length (snd e) <= n)%nat.

(** Sums over lists *)
Definition total {A} (l : list A) (f : A -> R) : R := fold_right Rplus 0 (map f l).
(** The semi-local energy of electrons [els]: every electron feels the local part of every atom; the angular
    momentum components [comp i a l] are taken only around the first [max_core] atoms of [near i], an arrangement of
    the atoms by distance from electron i. *)
Definition by_distance (e : vec) (a b : table * vec) : Prop := vlen (vsub e (snd a)) <= vlen (vsub e (snd b)).
Definition semilocal (atoms : list (table * vec)) (els : list vec) (max_core nl : nat) (near : nat -> list (table * vec)) (comp : nat -> table * vec -> nat -> R) : R :=
  total (seq 0 (length els)) (fun i =>
    let e := nth i els (0, 0, 0) in
    total atoms (fun a => V (fst a) (-1) (vlen (vsub e (snd a)))) +
    total (firstn max_core (near i)) (fun a => total (seq 0 nl) (fun l => comp i a l * V (fst a) (Z.of_nat l) (vlen (vsub e (snd a)))))).
Definition arranged (atoms : list (table * vec)) (els : list vec) (near : nat -> list (table * vec)) : Prop :=
  forall i, Permutation (near i) atoms /\ StronglySorted (by_distance (nth i els (0, 0, 0))) (near i).
(** [v] is a semi-local energy of the wavefunction psi at the configuration [els]: the components around an atom are
    those of psi as a function of the direction from that atom to the moved electron, over psi *)
Definition relocated (i : nat) (q : vec) (els : list vec) : list vec := firstn i els ++ q :: skipn (S i) els.
Definition around (psi : list vec -> R) (els : list vec) (i : nat) (a : vec) (p : vec) : R :=
  psi (relocated i (vadd a (vscale (vlen (vsub (nth i els (0, 0, 0)) a)) p)) els) / psi els.
Definition direction (e a : vec) : vec := vscale (/ vlen (vsub e a)) (vsub e a).
Definition semilocal_energy (psi : list vec -> R) (atoms : list (table * vec)) (els : list vec) (max_core nl : nat) (v : R) : Prop :=
  exists near comp, arranged atoms els near /\
    (forall i a l, (i < length els)%nat -> In a (firstn max_core (near i)) -> (l < nl)%nat ->
       angular_component l (direction (nth i els (0, 0, 0)) (snd a)) (around psi els i (snd a)) (comp i a l)) /\
    v = semilocal atoms els max_core nl near comp.
