(** Specification for C32 and C33. *)
From Coq Require Import ZArith QArith List.
From Verif Require Import Supercell_Model.
Import ListNotations.
Open Scope Z_scope.

Definition vsub (a b : vec) : vec := V (vx a - vx b) (vy a - vy b) (vz a - vz b).
(** Two primitive lattice points differ by a supercell translation: an integer combination
    of the rows of S. *)
Definition equivalent (s : mat) (p q : vec) : Prop := exists t, vsub p q = vmul t s.
(** Complete set of representatives. *)
Definition tiles (s : mat) (reps : list vec) : Prop :=
  NoDup reps /\ forall p, exists n, (In n reps /\ equivalent s p n) /\ forall n', In n' reps -> equivalent s p n' -> n' = n.

(** A k-point (reciprocal coordinates) folds to Gamma: its phase is a whole number on every
    supercell translation t S. *)
Definition phase (k : Q * Q * Q) (p : vec) : Q :=
  (let '(a, b, c) := k in a * inject_Z (vx p) + b * inject_Z (vy p) + c * inject_Z (vz p))%Q.
Definition folds (s : mat) (k : Q * Q * Q) : Prop := forall t, exists z, (phase k (vmul t s) == inject_Z z)%Q.
Definition in_zone (k : Q * Q * Q) : Prop :=
  (let '(a, b, c) := k in (0 <= a < 1) /\ (0 <= b < 1) /\ (0 <= c < 1))%Q.
Definition keq (k l : Q * Q * Q) : Prop :=
  (let '(a, b, c) := k in let '(a', b', c') := l in (a == a' /\ b == b' /\ c == c'))%Q.
(** Exactly the k-points of the zone that fold, each once. *)
Definition all_folding (s : mat) (ks : list (Q * Q * Q)) : Prop :=
  (forall k, In k ks -> folds s k /\ in_zone k) /\
  (forall k, folds s k -> in_zone k -> exists k', In k' ks /\ keq k' k) /\
  (forall i j a b, nth_error ks i = Some a -> nth_error ks j = Some b -> keq a b -> i = j).
