(** Specification for C38 (no reference to the interpreter): derivatives of a function of
    real coordinates along the coordinate lines through a point.

    [jet u a b c]: the function of one variable [u] has value [a] and first derivative [b]
    at 0, is differentiable around 0, and has second derivative [c] at 0. *)
From Coq Require Import Reals List Arith.
From Verif Require Import Lin.
Import ListNotations.
Open Scope R_scope.

Definition near (P : R -> Prop) : Prop := exists e, 0 < e /\ forall t, Rabs t < e -> P t.
Definition jet (u : R -> R) (a b c : R) : Prop :=
  u 0 = a /\ exists d : R -> R, near (fun t => derivable_pt_lim u t (d t)) /\ d 0 = b /\ derivable_pt_lim d 0 c.

(** The point reached from [p] by moving coordinate [k] by [s] units of [w k]. *)
Definition line (p w : vec) (k : nat) (s : R) : vec := fun j => p j + (if Nat.eqb j k then w j * s else 0).

(** [x], [J], [L] are the value, the (weighted) partial derivatives and the (weighted)
    Laplacian of [f] at [p] in the first [n] coordinates. With [w = 1] this is the gradient
    and the Laplacian. *)
Definition gradient_and_laplacian (n : nat) (w p : vec) (f : vec -> R) (x : R) (J : nat -> R) (L : R) : Prop :=
  x = f p /\ exists h : nat -> R, (forall k, (k < n)%nat -> jet (fun s => f (line p w k s)) x (J k) (h k)) /\ L = sum n h.

(** Total differentiability of a function of [m] variables. *)
Definition total (m : nat) (f : vec -> R) (v g : vec) : Prop :=
  forall eps, 0 < eps -> exists del, 0 < del /\ forall w, (forall a, (a < m)%nat -> Rabs (w a - v a) < del) ->
    Rabs (f w - f v - sum m (fun a => g a * (w a - v a))) <= eps * sum m (fun a => Rabs (w a - v a)).
Definition open1 (D : R -> Prop) : Prop := forall x, D x -> exists e, 0 < e /\ forall y, Rabs (y - x) < e -> D y.
Definition openn (m : nat) (D : vec -> Prop) : Prop :=
  forall v, D v -> exists e, 0 < e /\ forall w, (forall a, (a < m)%nat -> Rabs (w a - v a) < e) -> D w.
