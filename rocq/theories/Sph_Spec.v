(** Specification for C71, C72: particles on a sphere around a monopole of strength Q (Jain, Composite Fermions,
    section 3.10).  A configuration gives each electron (theta, phi). *)
From Coq Require Import Reals List Arith Lra.
From Coquelicot Require Import Coquelicot.
From Verif Require Import Hall_Spec.
Import ListNotations.
Open Scope R_scope.

Definition configuration := nat -> R * R.
Definition set_theta (c : configuration) (i : nat) (t : R) : configuration := fun j => if Nat.eqb j i then (t, snd (c j)) else c j.
Definition set_phi (c : configuration) (i : nat) (p : R) : configuration := fun j => if Nat.eqb j i then (fst (c j), p) else c j.
(** Derivative of a complex-valued function of a real variable. *)
Definition cderive (f : R -> C) (x : R) (l : C) : Prop := is_derive (fun t => fst (f t)) x (fst l) /\ is_derive (fun t => snd (f t)) x (snd l).
Definition CDerive (f : R -> C) (x : R) : C := (Derive (fun t => fst (f t)) x, Derive (fun t => snd (f t)) x).
(** Partial derivatives of a wavefunction. *)
Definition d_theta (i : nat) (psi : configuration -> C) (c : configuration) : C := CDerive (fun t => psi (set_theta c i t)) (fst (c i)).
Definition d_phi (i : nat) (psi : configuration -> C) (c : configuration) : C := CDerive (fun t => psi (set_phi c i t)) (snd (c i)).

(** Unit vectors at a point; component a = 0, 1, 2 is x, y, z. *)
Definition rvec (x : R * R) (a : nat) : R := nth a [sin (fst x) * cos (snd x); sin (fst x) * sin (snd x); cos (fst x)] 0.
Definition thvec (x : R * R) (a : nat) : R := nth a [cos (fst x) * cos (snd x); cos (fst x) * sin (snd x); - sin (fst x)] 0.
Definition phvec (x : R * R) (a : nat) : R := nth a [- sin (snd x); cos (snd x); 0] 0.

Fixpoint csigma (n : nat) (f : nat -> C) : C := match n with O => RtoC 0 | S k => Cplus (csigma k f) (f k) end.
Definition imag (x : R) : C := (0, x).

(** Kinetic angular momentum of electron i: Lambda = -i phi_hat d_theta + i theta_hat / sin(theta) d_phi + Q cot(theta) theta_hat *)
Definition Lambda (Q : R) (i a : nat) (psi : configuration -> C) : configuration -> C := fun c =>
  Cplus (Cplus (Cmult (imag (- phvec (c i) a)) (d_theta i psi c)) (Cmult (imag (thvec (c i) a / sin (fst (c i)))) (d_phi i psi c)))
        (Cmult (RtoC (Q * (cos (fst (c i)) / sin (fst (c i))) * thvec (c i) a)) (psi c)).
(** Total angular momentum of n electrons: the sum of Lambda + Q r_hat *)
Definition L (n : nat) (Q : R) (a : nat) (psi : configuration -> C) : configuration -> C := fun c =>
  csigma n (fun i => Cplus (Lambda Q i a psi c) (Cmult (RtoC (Q * rvec (c i) a)) (psi c))).
(** Hamiltonian: sum over electrons of |Lambda|^2 / (2 r^2) *)
Definition kinetic_operator (n : nat) (Q r : R) (psi : configuration -> C) (c : configuration) : C :=
  csigma n (fun i => Cdiv (Cplus (Cplus (Lambda Q i 0 (Lambda Q i 0 psi) c) (Lambda Q i 1 (Lambda Q i 1 psi) c)) (Lambda Q i 2 (Lambda Q i 2 psi) c)) (RtoC (2 * r ^ 2))).
Definition L_square (n : nat) (Q : R) (psi : configuration -> C) (c : configuration) : C :=
  Cplus (Cplus (L n Q 0 (L n Q 0 psi) c) (L n Q 1 (L n Q 1 psi) c)) (L n Q 2 (L n Q 2 psi) c).

Definition exp_of (z : C) : C := Cmult (RtoC (exp (fst z))) (cos (snd z), sin (snd z)).
(** Near e, f is a logarithm of psi with partial derivatives [ft i], [fp i]; at e the partial derivatives of those
    are [ftt], [ftp], [fpp] (mixed derivatives in either order). *)
Definition near (eps : R) (n : nat) (e c : configuration) : Prop :=
  forall i, (i < n)%nat -> Rabs (fst (c i) - fst (e i)) < eps /\ Rabs (snd (c i) - snd (e i)) < eps.
Record log_derivatives (n : nat) (psi f : configuration -> C) (e : configuration)
    (ft fp : nat -> configuration -> C) (ftt ftp fpp : nat -> nat -> C) : Prop := {
  ld_first : exists eps, 0 < eps /\ forall c, near eps n e c -> psi c = exp_of (f c) /\ forall i, (i < n)%nat ->
    cderive (fun t => f (set_theta c i t)) (fst (c i)) (ft i c) /\ cderive (fun t => f (set_phi c i t)) (snd (c i)) (fp i c);
  ld_tt : forall i j, (i < n)%nat -> (j < n)%nat -> cderive (fun t => ft i (set_theta e j t)) (fst (e j)) (ftt i j);
  ld_tp : forall i j, (i < n)%nat -> (j < n)%nat -> cderive (fun t => ft i (set_phi e j t)) (snd (e j)) (ftp i j);
  ld_pt : forall i j, (i < n)%nat -> (j < n)%nat -> cderive (fun t => fp j (set_theta e i t)) (fst (e i)) (ftp i j);
  ld_pp : forall i j, (i < n)%nat -> (j < n)%nat -> cderive (fun t => fp i (set_phi e j t)) (snd (e j)) (fpp i j) }.

(** psi is in the lowest Landau level of q flux quanta: as a function of any one electron it is a homogeneous
    polynomial of degree q in the spinors u, v of that electron. *)
Definition moved (c : configuration) (i : nat) (x : R * R) : configuration := fun j => if Nat.eqb j i then x else c j.
Definition lowest_level (n q : nat) (psi : configuration -> C) : Prop := forall i c, (i < n)%nat -> exists coeff : nat -> C, forall x,
  psi (moved c i x) = csigma (S q) (fun t => Cmult (coeff t) (Cmult (power (u_of x) t) (power (v_of x) (q - t)))).
