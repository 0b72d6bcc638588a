(** Model of walker branching, /repo/src/jaqmc_legacy/dmc/branch.py (variable population) and
    /repo/src/jaqmc_legacy/dmc/branch_fix_size.py (fixed population).

    Weights are reals (floating point is not modelled) and, being exponentials, positive, so the
    divisions are defined.  An array of length n is a list; inside a jitted function it is a
    function of the index.  The uniform draws are an argument: the k-th draw is the one used for
    the k-th pair (in branch.py the key is split only when a pair is merged; pairs are sorted by
    weight, so the merged pairs come first and the k-th split belongs to the k-th pair).
    [None] is an exception raised by jax (reshape or top_k with too few walkers). *)
From Coq Require Import Reals List Arith Bool.
Import ListNotations.
Open Scope R_scope.

Definition rltb (x y : R) : bool := if Rlt_dec x y then true else false.
Definition rleb (x y : R) : bool := if Rle_dec x y then true else false.
Definition at_ (w : list R) (i : nat) : R := nth i w 0.
Definition put {T} (f : nat -> T) (i : nat) (v : T) : nat -> T := fun j => if Nat.eqb j i then v else f j.
Definition count (p : R -> bool) (w : list R) : nat := length (filter p w).

(** jax.lax.top_k (semantics of jax): sorted, ties to the lower index *)
Fixpoint place (before : nat -> nat -> bool) (i : nat) (l : list nat) : list nat :=
  match l with [] => [i] | j :: l' => if before i j then i :: j :: l' else j :: place before i l' end.
Definition order (before : nat -> nat -> bool) (n : nat) : list nat := fold_right (place before) [] (seq 0 n).
Definition smallest (w : list R) (k : nat) : list nat := firstn k (order (fun i j => rleb (at_ w i) (at_ w j)) (length w)).
Definition largest (w : list R) (k : nat) : list nat := firstn k (order (fun i j => rleb (at_ w j) (at_ w i)) (length w)).
(** reshape((k, 2)) of a list of 2k indices *)
Fixpoint pair_up (l : list nat) : list (nat * nat) := match l with a :: b :: r => (a, b) :: pair_up r | _ => [] end.

(** ** branch.py *)
(** 39-49: keep the leading decimal digit *)
Fixpoint leading (fuel t : nat) : nat :=
  match fuel with O => t | S f => if Nat.ltb t 10 then t else (10 * leading f (t / 10))%nat end.
Definition round_merge_pairs (t : nat) : nat := if Nat.leb t 10 then t else leading t t.
(** 84-93 and 61-71: one pair *)
Definition merge_pair (w : list R) (min u : R) (p : nat * nat) (st : (nat -> R) * (nat -> nat)) : (nat -> R) * (nat -> nat) :=
  let k1 := at_ w (fst p) in let k2 := at_ w (snd p) in
  if rltb k1 min then
    let (keep, rm) := if rltb u (k1 / (k1 + k2)) then (fst p, snd p) else (snd p, fst p) in
    (put (fst st) keep (k1 + k2), put (snd st) rm 0%nat)
  else st.
(** 73-77: fori_loop over the pairs *)
Fixpoint merge_all (w : list R) (min : R) (pairs : list (nat * nat)) (us : list R) (st : (nat -> R) * (nat -> nat)) : (nat -> R) * (nat -> nat) :=
  match pairs with [] => st | p :: ps => merge_all w min ps (tl us) (merge_pair w min (hd 0 us) p st) end.
(** 79-80 *)
Definition split (max : R) (st : (nat -> R) * (nat -> nat)) : (nat -> R) * (nat -> nat) :=
  (fun i => fst st i * (1 - (if rltb max (fst st i) then 1 else 0) / 2),
   fun i => (snd st i * (1 + (if rltb max (fst st i) then 1 else 0)))%nat).
(** 51-82 *)
Definition do_branch (w : list R) (us : list R) (m : nat) (min max : R) : (nat -> R) * (nat -> nat) :=
  split max (merge_all w min (pair_up (smallest w (2 * m))) us (at_ w, fun _ => 1%nat)).
(** numpy repeat along axis 0: the source index of every output row *)
Definition repeated (rep : nat -> nat) (n : nat) : list nat := flat_map (fun i => repeat i (rep i)) (seq 0 n).
(** 15-37; the reshape of line 58 fails when fewer than 2 * merge_pairs walkers exist *)
Definition branch_vary {A} (d : A) (w : list R) (us : list R) (arrays : list (list A)) (min max : R) : option (list R * list (list A)) :=
  let m := round_merge_pairs (count (fun x => rltb x min) w / 2 + 1) in
  if Nat.ltb (length w) (2 * m) then None
  else
    let st := do_branch w us m min max in
    let src := repeated (snd st) (length w) in
    Some (map (fst st) src, map (fun arr => map (fun i => nth i arr d) src) arrays).

(** ** branch_fix_size.py *)
(** arr.at[idx].set(vals) and arr.at[idx].add(vals) *)
Fixpoint set_all {T} (f : nat -> T) (idx : list nat) (vals : list T) : nat -> T :=
  match idx, vals with i :: idx', v :: vals' => set_all (put f i v) idx' vals' | _, _ => f end.
Fixpoint add_all (f : nat -> R) (idx : list nat) (vals : list R) : nat -> R :=
  match idx, vals with i :: idx', v :: vals' => add_all (put f i (f i + v)) idx' vals' | _, _ => f end.
(** 66-69 of the file: thresholds, kept and removed indices *)
Definition threshold (w : list R) (p : nat * nat) : R := at_ w (fst p) / (at_ w (fst p) + at_ w (snd p)).
Definition kept (w : list R) (u : R) (p : nat * nat) : nat := if rltb u (threshold w p) then fst p else snd p.
Definition removed (w : list R) (u : R) (p : nat * nat) : nat := if rltb (threshold w p) u then fst p else snd p.
Fixpoint each (f : R -> nat * nat -> nat) (us : list R) (ps : list (nat * nat)) : list nat :=
  match ps with [] => [] | p :: ps' => f (hd 0 us) p :: each f (tl us) ps' end.
(** 64-80 *)
Definition do_branch_fixed_weight (w : list R) (us : list R) (pairs : list (nat * nat)) (big : list nat) : nat -> R :=
  let ks := each (kept w) us pairs in let rs := each (removed w) us pairs in
  let w1 := add_all (at_ w) ks (map (at_ w) rs) in
  let w2 := set_all w1 big (map (fun g => w1 g / 2) big) in
  set_all w2 rs (map w2 big).
Definition do_branch_fixed_array {A} (d : A) (w : list R) (us : list R) (pairs : list (nat * nat)) (big : list nat) (arr : list A) : nat -> A :=
  set_all (fun i => nth i arr d) (each (removed w) us pairs) (map (fun i => nth i arr d) big).
(** 42-46: number of pairs to merge, equal to the number of walkers to split *)
Definition num_to_change (w : list R) (min max : R) : nat :=
  Nat.max ((count (fun x => rltb x min) w + 1) / 2) (count (fun x => rltb max x) w).
(** 12-62; top_k (line 54) fails when 2 * num_to_change walkers do not exist *)
Definition branch_fixed {A} (d : A) (w : list R) (us : list R) (arrays : list (list A)) (min max : R) : option (list R * list (list A)) :=
  let m := num_to_change w min max in
  if Nat.eqb m 0 then Some (w, arrays)
  else if Nat.ltb (length w) (2 * m) then None
  else
    let pairs := pair_up (smallest w (2 * m)) in let big := largest w m in
    Some (map (do_branch_fixed_weight w us pairs big) (seq 0 (length w)),
          map (fun arr => map (do_branch_fixed_array d w us pairs big arr) (seq 0 (length w))) arrays).
