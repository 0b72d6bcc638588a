(** Specification for C95: derivatives of functions of real and complex arrays, in real coordinates. *)
From Coq Require Import Reals List Arith.
From Coquelicot Require Import Complex.
From Verif Require Import Lin Lap_Spec Fl_Spec Ad_Model.
Open Scope R_scope.

(** Real entries of an array of [n] entries have no imaginary part. *)
Definition typed (n : nat) (kind : nat -> dtype) (x : cvec) : Prop := forall i, (i < n)%nat -> kind i = RE -> snd (x i) = 0.
(** The 2n real coordinates of an array (real parts, then imaginary parts), and the array they describe. *)
Definition coords (n : nat) (x : cvec) : vec := fun a => if Nat.ltb a n then fst (x a) else snd (x (a - n)%nat).
Definition point (n : nat) (kind : nat -> dtype) (r : vec) : cvec := fun a => match kind a with RE => RtoC (r a) | CX => (r a, r (n + a)%nat) end.

(** First and second partial derivatives, in the 2n real coordinates, of the real part and of the
    imaginary part of a function. *)
Record partials := { g_re : vec -> vec; h_re : vec -> mat; g_im : vec -> vec; h_im : vec -> mat }.
Definition differentiable_twice (N : nat) (D : vec -> Prop) (F : vec -> R) (G : vec -> vec) (H : vec -> mat) : Prop :=
  forall v, D v -> total N F v (G v) /\ forall a, (a < N)%nat -> total N (fun w => G w a) v (H v a).
(** [f] (one output entry) is a function of its [n] entries, twice differentiable on the open set [D]. *)
Definition smooth (n : nat) (kind : nat -> dtype) (D : vec -> Prop) (f : cvec -> C) (d : partials) : Prop :=
  openn (2 * n) D /\ (forall x y, (forall i, (i < n)%nat -> x i = y i) -> f x = f y) /\
  differentiable_twice (2 * n) D (fun r => fst (f (point n kind r))) (g_re d) (h_re d) /\
  differentiable_twice (2 * n) D (fun r => snd (f (point n kind r))) (g_im d) (h_im d).
(** Complex differentiable: the Cauchy-Riemann equations, and second derivatives that do not depend on
    the order of differentiation. *)
Definition cauchy_riemann (n : nat) (D : vec -> Prop) (d : partials) : Prop :=
  forall v, D v -> 
    (forall a, (a < n)%nat -> g_re d v a = g_im d v (n + a)%nat /\ g_re d v (n + a)%nat = - g_im d v a) /\
    (forall a b, (a < 2 * n)%nat -> (b < 2 * n)%nat -> h_re d v a b = h_re d v b a /\ h_im d v a b = h_im d v b a).

(** [X] holds [n] tracked entries at [p]: value [x], Jacobian [J] and Laplacian [L]. *)
Definition tracked (n K : nat) (w p : vec) (kind : nat -> dtype) (X : vec -> cvec) (x : cvec) (J : nat -> cvec) (L : cvec) : Prop :=
  (forall i, (i < n)%nat -> complex_gradient_and_laplacian K w p (fun q => X q i) (x i) (fun k => J k i) (L i)) /\
  (forall q, typed n kind (X q)) /\ typed n kind x /\ (forall k, typed n kind (J k)) /\ typed n kind L.
