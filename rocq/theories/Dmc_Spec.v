(** C48, C49: what the estimators are meant to be. *)
From Coq Require Import Reals List Arith.
Import ListNotations.
Open Scope R_scope.

(** one accepted iteration: the energy offset in force, the averaged energy, the total weight and the
    effective time step *)
Record entry := { off : R; en : R; wt : R; dt : R }.
Definition lastn {A} (n : nat) (l : list A) : list A := skipn (length l - n) l.
(** the correction factor Pi of the last entry [x] after the entries [before]: it undoes the
    population control of the last [M] iterations *)
Definition Pi (M : nat) (before : list entry) (x : entry) : R := exp (- dt x * fold_right Rplus 0 (lastn M (map off (before ++ [x])))).
(** energy and full weight (total weight times Pi) of each iteration *)
Fixpoint terms (M : nat) (before h : list entry) : list (R * R) :=
  match h with [] => [] | x :: h' => (en x, wt x * Pi M before x) :: terms M (before ++ [x]) h' end.
Definition weighted_average (l : list (R * R)) : R := fold_right (fun x acc => fst x * snd x + acc) 0 l / fold_right (fun x acc => snd x + acc) 0 l.
(** the mixed estimator over the last [window] iterations *)
Definition mixed_estimate (M window : nat) (h : list entry) : R := weighted_average (lastn window (terms M [] h)).

(** effective time step: accepted over attempted squared displacement, over all walkers of all
    updates; a walker is (displacement, acceptance rate, weight) *)
Definition attempted (ws : list (R * R * R)) : R := fold_right (fun x acc => fst (fst x) ^ 2 * snd x + acc) 0 ws.
Definition accepted (ws : list (R * R * R)) : R := fold_right (fun x acc => snd (fst x) * fst (fst x) ^ 2 * snd x + acc) 0 ws.
