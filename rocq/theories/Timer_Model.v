(** Model of /repo/src/jaqmc/utils/time_tracker.py (TimeTracker, lines 12-84).
    The clock ([time.perf_counter()]) is an input; times are rationals (floats in
    the code, so rounding is not modelled). *)
From Coq Require Import List QArith ZArith.
Import ListNotations.
Open Scope Z_scope.

Record tracker := {
  warmup_steps : Z;              (* line 46 *)
  boundary_time : option Q;      (* line 47 *)
  last_time : option Q;          (* line 48 *)
  ticks : Z                      (* line 49 *)
}.

(** start, lines 52-56, at clock reading [now]. *)
Definition start (t : tracker) (now : Q) : tracker :=
  {| warmup_steps := warmup_steps t; boundary_time := Some now; last_time := None; ticks := 0 |}.

(** __init__, lines 34-50; None stands for the ValueError of line 45. *)
Definition make (warmup : Z) (now : Q) : option tracker :=
  if warmup <? 0 then None
  else Some (start {| warmup_steps := warmup; boundary_time := None; last_time := None; ticks := 0 |} now).

(** tick, lines 58-68. *)
Definition tick (t : tracker) (now : Q) : tracker :=
  let n := ticks t + 1 in
  {| warmup_steps := warmup_steps t;
     boundary_time := if n <=? warmup_steps t then Some now else boundary_time t;
     last_time := Some now;
     ticks := n |}.

(** time_per_step, lines 70-84. *)
Definition time_per_step (t : tracker) : option Q :=
  let measured := ticks t - warmup_steps t in
  match boundary_time t, last_time t with
  | Some b, Some l => if 0 <? measured then Some ((l - b) / inject_Z measured)%Q else None
  | _, _ => None
  end.

(** Calls on a tracker, with the clock reading of each. *)
Inductive call := CStart (now : Q) | CTick (now : Q).
Definition apply (t : tracker) (c : call) : tracker :=
  match c with CStart now => start t now | CTick now => tick t now end.
