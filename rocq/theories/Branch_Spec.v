(** C45: vocabulary for branching. *)
From Coq Require Import Reals List Arith.
From Coquelicot Require Import Coquelicot.
Import ListNotations.
Open Scope R_scope.

Definition total (w : list R) : R := fold_right Rplus 0 w.
(** weighted sum of an observable over the walkers *)
Fixpoint weighted (w a : list R) : R := match w, a with x :: w', y :: a' => x * y + weighted w' a' | _, _ => 0 end.
(** [v] is the mean of [g] over [n] independent uniform draws in [0, 1].  The integrand may be
    arbitrary at finitely many values of each draw (which do not change the integral). *)
Fixpoint mean (n : nat) (g : list R -> R) (v : R) : Prop :=
  match n with
  | O => g [] = v
  | S k => exists (h : R -> R) (except : list R),
      (forall u, 0 < u < 1 -> ~ In u except -> mean k (fun us => g (u :: us)) (h u)) /\ is_RInt h 0 1 v
  end.
(** every output row (of all arrays alike) is a copy of one input row *)
Definition copies {A} (d : A) (n : nat) (src : list nat) (before after : list (list A)) : Prop :=
  (forall s, In s src -> (s < n)%nat) /\ after = map (fun arr => map (fun s => nth s arr d) src) before.
