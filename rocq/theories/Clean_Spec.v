(** C47: the policy.  A data file is removed exactly when it is neither one of the [keep] most
    recent ones nor at a multiple of [N]. *)
From Coq Require Import List Arith Bool.
Import ListNotations.
Section Spec.
Variables (P : Type) (index_of : P -> option nat).
(** how many data files of the directory are newer than index [k] *)
Definition newer (dir : list P) (k : nat) : nat := length (filter (fun q => match index_of q with Some j => Nat.ltb k j | None => false end) dir).
Definition to_keep (dir : list P) (keep N : nat) (p : P) : Prop := forall k, index_of p = Some k -> newer dir k < keep \/ Nat.divide N k.
(** different data files have different steps *)
Definition distinct (dir : list P) : Prop := NoDup dir /\ forall p q k, In p dir -> In q dir -> index_of p = Some k -> index_of q = Some k -> p = q.
End Spec.
