(** C63: what a semi-local effective core potential is. *)
From Coq Require Import Reals List Arith ZArith String.
From Coquelicot Require Import Coquelicot.
From Verif Require Import Quad_Spec Lin Geom_Spec.
Import ListNotations.
Open Scope R_scope.

(** ** Radial potentials, as PySCF tabulates them: for each angular momentum (-1 is the local part) a list
    of groups, the n-th group listing pairs (exponent, coefficient) of the terms with radius to the n-2 *)
Definition group := list (R * R).
Definition table := list (Z * list group).
Definition term (n : nat) (r : R) (ac : R * R) : R := snd ac * powerRZ r (Z.of_nat n - 2) * exp (- fst ac * r ^ 2).
Fixpoint groups_value (n : nat) (gs : list group) (r : R) : R :=
  match gs with [] => 0 | g :: gs' => fold_right Rplus 0 (map (term n r) g) + groups_value (S n) gs' r end.
(** V_l(r): zero when the table has no entry for l *)
Definition V (t : table) (l : Z) (r : R) : R := match find (fun e => Z.eqb (fst e) l) t with Some e => groups_value 0 (snd e) r | None => 0 end.
(** every angular momentum at most once, and none below the local one *)
Definition proper (t : table) : Prop := NoDup (map fst t) /\ forall e, In e t -> (-1 <= fst e)%Z.

(** ** Angular projections *)
Definition vadd (p q : Quad_Spec.vec) : Quad_Spec.vec := (fst (fst p) + fst (fst q), snd (fst p) + snd (fst q), snd p + snd q).
Definition vscale (k : R) (p : Quad_Spec.vec) : Quad_Spec.vec := (k * fst (fst p), k * snd (fst p), k * snd p).
Definition vsub (p q : Quad_Spec.vec) : Quad_Spec.vec := (fst (fst p) - fst (fst q), snd (fst p) - snd (fst q), snd p - snd q).
Definition vdot (p q : Quad_Spec.vec) : R := fst (fst p) * fst (fst q) + snd (fst p) * snd (fst q) + snd p * snd q.
Definition vlen (p : Quad_Spec.vec) : R := sqrt (vdot p p).
(** the Legendre polynomials of degree 0, 1 and 2 *)
Definition P (l : nat) (x : R) : R := match l with O => 1 | 1%nat => x | _ => (3 * x ^ 2 - 1) / 2 end.
(** a complex function of a point, its integral over the unit sphere, polynomials *)
Definition cfn := Quad_Spec.vec -> C.
Definition re (f : cfn) : fn := fun x y z => fst (f (x, y, z)).
Definition im (f : cfn) : fn := fun x y z => snd (f (x, y, z)).
Definition csphere_integral (f : cfn) (v : C) : Prop := sphere_integral (re f) (fst v) /\ sphere_integral (im f) (snd v).
Definition CPoly (d : nat) (f : cfn) : Prop := Poly d (re f) /\ Poly d (im f).
(** [v] is the component of angular momentum l of [f], evaluated in the direction [n] *)
Definition component (l : nat) (n : Quad_Spec.vec) (f : cfn) (v : C) : Prop :=
  csphere_integral (fun p => Cmult (RtoC (INR (2 * l + 1) / (4 * PI) * P l (vdot p n))) (f p)) v.
(** solid harmonics of degree 0, 1, 2: constants, linear forms, traceless quadratic forms *)
Inductive harmonic : nat -> fn -> Prop :=
| H0 a : harmonic 0 (fun x y z => a)
| H1 a b c : harmonic 1 (fun x y z => a * x + b * y + c * z)
| H2 a b d e f : harmonic 2 (fun x y z => a * x ^ 2 + b * y ^ 2 - (a + b) * z ^ 2 + d * (x * y) + e * (y * z) + f * (x * z)).
(** complex functions that on the unit sphere are polynomials of degree at most d, or harmonics of degree l *)
Definition poly_on_sphere (d : nat) (f : cfn) : Prop := exists g, CPoly d g /\ forall p, vdot p p = 1 -> f p = g p.
Definition harmonic_on_sphere (l : nat) (f : cfn) : Prop := exists g h, harmonic l g /\ harmonic l h /\ forall x y z, x * x + y * y + z * z = 1 -> f (x, y, z) = (g x y z, h x y z).

(** ** Bloch functions of one position: translation by the lattice vector with coordinates m multiplies by
    exp (2 pi i m.twist) *)
Definition cis (t : R) : C := (cos t, sin t).
Definition to3 (v : Lin.vec) : Quad_Spec.vec := (v 0%nat, v 1%nat, v 2%nat).
Definition of3 (p : Quad_Spec.vec) : Lin.vec := fun i => match i with O => fst (fst p) | 1%nat => snd (fst p) | _ => snd p end.
Definition bloch (lattice : mat) (twist : Quad_Spec.vec) (psi : cfn) : Prop :=
  forall p m, psi (vadd p (to3 (lattice_vector 3 lattice m))) = Cmult (cis (2 * PI * vdot (IZR (m 0%nat), IZR (m 1%nat), IZR (m 2%nat)) twist)) (psi p).
