(** C46: what a failure-free run looks like. *)
From Coq Require Import List Arith.
From Verif Require Import Roll_Model.
Import ListNotations.

Section Spec.
Variables (S : Type) (init : S) (iter : nat -> S -> S -> Prop) (rejected : S -> S -> Prop).
(** any number of rejected attempts *)
Inductive attempts : S -> S -> Prop := Here s : attempts s s | More s s1 s2 : rejected s s1 -> attempts s1 s2 -> attempts s s2.
(** [trace rows s n]: an execution that never fails or rolls back writes [rows] in its first [n]
    steps and is then in state [s].  Every step is written once, in order. *)
Inductive trace : list (nat * S) -> S -> nat -> Prop :=
| Begin : trace [] init 0
| Next rows s n s1 s' : trace rows s n -> attempts s s1 -> iter n s1 s' -> trace (rows ++ [(n, s')]) s' (n + 1).
Definition genuine (d : data S) : Prop := trace (d_rows d) (d_state d) (d_step d + 1).
Definition genuine_file (f : file S) : Prop := match f with Good d => genuine d | Torn _ => True end.
Definition intact (f : file S) : Prop := match f with Good _ => True | Torn _ => False end.
Inductive reachable (bs : nat) : world S -> Prop :=
| At_first w : proc w = None -> Forall genuine_file (saved w ++ restore w) -> reachable bs w
| After w w' : reachable bs w -> event S bs init iter rejected w w' -> reachable bs w'.
(** the files found at first were written by runs with the same block size *)
Definition on_grid (bs : nat) (w : world S) : Prop := forall f, In f (saved w ++ restore w) -> index f mod bs = 0.
Inductive run_from (bs : nat) : world S -> Prop :=
| From w : proc w = None -> Forall genuine_file (saved w ++ restore w) -> on_grid bs w -> run_from bs w
| Then w w' : run_from bs w -> event S bs init iter rejected w w' -> run_from bs w'.
End Spec.
