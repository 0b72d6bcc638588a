(** Specification for C93: what "several processes run as one" means. *)
From Coq Require Import List Arith ZArith.
Import ListNotations.

(** Every process executes its own list of collective operations; an operation takes place when
    all processes have reached it. The run completes if all lists are used up that way. *)
Inductive completes {A : Type} : list (list A) -> Prop :=
| all_done : forall st, Forall (fun r => r = []) st -> completes st
| all_meet : forall o st st', Forall2 (fun r r' => r = o :: r') st st' -> completes st' -> completes st.

(** Piece [k] of [n] equal pieces of a list. *)
Definition piece {A : Type} (n : nat) (g : list A) (k : nat) : list A :=
  let m := length g / n in firstn m (skipn (k * m) g).
(** Pieces put back in order. *)
Definition joined {A : Type} (n : nat) (f : nat -> list A) : list A := flat_map f (seq 0 n).

(** Readings of a clock that never runs backwards, [t0] being the first one. *)
Definition forward_clock (t0 : Z) (now : nat -> Z) : Prop := (forall s, (t0 <= now s)%Z) /\ forall s s', s <= s' -> (now s <= now s')%Z.
(** Two clocks never differ by more than one tick. *)
Definition one_tick_apart (t0 : Z) (now : nat -> Z) (t0' : Z) (now' : nat -> Z) : Prop :=
  t0 = t0' /\ forall s, (Z.abs (now s - now' s) <= 1)%Z.
(** A request that is pending stays pending. *)
Definition stays (asked : nat -> bool) : Prop := forall s s', s <= s' -> asked s = true -> asked s' = true.

(** Two processes judge every elapsed time in the same way. *)
Definition same_judgement (interval : Z) (t0 : Z) (now : nat -> Z) (t0' : Z) (now' : nat -> Z) : Prop :=
  (forall s, (interval <? now s - t0)%Z = (interval <? now' s - t0')%Z) /\
  (forall s s', s < s' -> (interval <? now s' - now s)%Z = (interval <? now' s' - now' s)%Z).
(** Sum of [f 0 .. f (n-1)]. *)
Definition total (n : nat) (f : nat -> Z) : Z := fold_right Z.add 0%Z (map f (seq 0 n)).
