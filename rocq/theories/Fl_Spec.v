(** Specification for C88, derivatives: a complex function of real coordinates is differentiated part by part. *)
From Coq Require Import Reals List Arith.
From Coquelicot Require Import Complex.
From Verif Require Import Lin Lap_Spec.
Open Scope R_scope.

Definition complex_gradient_and_laplacian (n : nat) (w p : vec) (f : vec -> C) (x : C) (J : nat -> C) (L : C) : Prop :=
  gradient_and_laplacian n w p (fun q => fst (f q)) (fst x) (fun k => fst (J k)) (fst L) /\
  gradient_and_laplacian n w p (fun q => snd (f q)) (snd x) (fun k => snd (J k)) (snd L).

(** [inv] is a two-sided inverse of the m by m matrix [a]. *)
Definition csum (m : nat) (f : nat -> C) : C := (sum m (fun i => fst (f i)), sum m (fun i => snd (f i))).
Definition complex_inverse (m : nat) (a inv : nat -> nat -> C) : Prop :=
  (forall r c, (r < m)%nat -> (c < m)%nat -> csum m (fun b => Cmult (a r b) (inv b c)) = RtoC (delta r c)) /\
  (forall r c, (r < m)%nat -> (c < m)%nat -> csum m (fun b => Cmult (inv r b) (a b c)) = RtoC (delta r c)).
(** The determinant, by the sum over signed products of cofactors along the first column. *)
Fixpoint determinant (m : nat) (a : nat -> nat -> C) : C :=
  match m with
  | O => RtoC 1
  | S k => csum (S k) (fun i => Cmult (RtoC ((-1) ^ i)) (Cmult (a i 0%nat) (determinant k (fun r c => a (if Nat.ltb r i then r else S r) (S c)))))
  end.
