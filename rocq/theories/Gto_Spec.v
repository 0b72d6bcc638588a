(** What the atomic orbitals are supposed to be, independently of the way the code indexes them. *)
From Coq Require Import Reals List Arith Lra Lia ZArith Factorial.
From Coquelicot Require Import Coquelicot.
From Verif Require Import Lin.
Import ListNotations.
Open Scope R_scope.

(** ** Real solid harmonics as polynomials in x, y, z *)
(** real and imaginary part of (x + i y)^m *)
Fixpoint re_pow (m : nat) (x y : R) : R := match m with O => 1 | S k => x * re_pow k x y - y * im_pow k x y end
with im_pow (m : nat) (x y : R) : R := match m with O => 0 | S k => x * im_pow k x y + y * re_pow k x y end.
(** r^(l-m) times the m-th derivative of the Legendre polynomial P_l at z/r, as a polynomial in z and w = r^2;
    (l, l-1) for l = m + k:   (l - m) Q_l = (2 l - 1) z Q_{l-1} - (l + m - 1) w Q_{l-2},   Q_m = 1*3*...*(2m-1) *)
Fixpoint odd_factorial (m : nat) : R := match m with O => 1 | S k => (2 * INR k + 1) * odd_factorial k end.
Fixpoint zonal_pair (m : nat) (z w : R) (k : nat) : R * R :=
  match k with
  | O => (odd_factorial m, 0)
  | S j => let '(p, q) := zonal_pair m z w j in
      (((2 * (INR m + INR j) + 1) * z * p - (INR m + INR j + INR m) * (w * q)) / (INR j + 1), p)
  end.
Definition zonal (l m : nat) (z w : R) : R := fst (zonal_pair m z w (l - m)).
Definition sphere_factor (l m : nat) : R := sqrt ((2 * INR l + 1) / (4 * PI) * (INR (fact (l - m)) / INR (fact (l + m)))).
(** the real solid harmonic of degree l and order m *)
Definition solid (l : nat) (m : Z) (x y z : R) : R :=
  let a := Z.abs_nat m in
  let c := sphere_factor l a * zonal l a z (x * x + y * y + z * z) in
  match m with
  | Z0 => c
  | Zpos _ => sqrt 2 * c * re_pow a x y
  | Zneg _ => sqrt 2 * c * im_pow a x y
  end.
(** harmonic: the second partial derivatives exist and add up to zero everywhere *)
Definition harmonic (f : R -> R -> R -> R) : Prop := exists fx fy fz fxx fyy fzz : R -> R -> R -> R, forall x y z,
  is_derive (fun t => f t y z) x (fx x y z) /\ is_derive (fun t => f x t z) y (fy x y z) /\ is_derive (fun t => f x y t) z (fz x y z) /\
  is_derive (fun t => fx t y z) x (fxx x y z) /\ is_derive (fun t => fy x t z) y (fyy x y z) /\ is_derive (fun t => fz x y t) z (fzz x y z) /\
  fxx x y z + fyy x y z + fzz x y z = 0.
(** pyscf's order within a shell: x, y, z for p, otherwise m = -l ... l *)
Definition shell_orders (l : nat) : list Z :=
  match l with 1%nat => [1; -1; 0]%Z | _ => map (fun k => (Z.of_nat k - Z.of_nat l)%Z) (seq 0 (2 * l + 1)) end.

(** ** A basis: for each element its shells, each a list of primitives [alpha, w_1 ... w_nctr] *)
(** The value at r of one contracted orbital: sum over the primitives with a weight above the threshold *)
Definition gaussian_sum (keep : R -> bool) (prims : list (R * list R)) (w : nat) (d2 : R) : R :=
  fold_right Rplus 0 (map (fun p => if keep (nth w (snd p) 0) then nth w (snd p) 0 * exp (- (fst p) * d2) else 0) prims).
