(** Model of walker padding and of the aggregates over hosts:
    /repo/src/jaqmc_legacy/dmc/dmc.py 774-779 (get_to_pad_num), 756-772 (run_dmc_single_walker), 781-898
    (make_step), 901-905 (success_over_all_hosts); /repo/src/jaqmc_legacy/dmc/utils.py 15-59. *)
From Coq Require Import List Arith ZArith Bool QArith.
From Coq Require Import Floats.SpecFloat.
Import ListNotations.
Open Scope nat_scope.

(** ** get_to_pad_num *)
(** int(np.log10 x) for x >= 1: one less than the number of decimal digits *)
Fixpoint log10_fuel (fuel x : nat) : nat := match fuel with O => 0 | S k => if x <? 10 then 0 else S (log10_fuel k (x / 10)) end.
Definition log10 (x : nat) : nat := log10_fuel x x.
(** With one digit 10 ** (num_digit - 1) is the double 0.1 = 7205759403792794 * 2^-56; the floor division
    by it is exact (CPython takes fmod first), the product is rounded to nearest. *)
Definition tenth : spec_float := S754_finite false 7205759403792794 (-56).
Definition top_float (least : Z) : Z := (least * 2 ^ 56 / 7205759403792794)%Z.
Definition to_Z (f : spec_float) : Z := match f with S754_finite false m e => if (0 <=? e)%Z then (Zpos m * 2 ^ e)%Z else (Zpos m / 2 ^ (- e))%Z | _ => 0%Z end.
Definition target_one_digit (least : nat) : nat := Z.to_nat (to_Z (SFmul 53 1024 (binary_normalize 53 1024 (top_float (Z.of_nat least) + 1) 0 false) tenth)).
(** 774-779 *)
Definition target_num (least digit : nat) : nat :=
  match digit with
  | O => target_one_digit least
  | S d => (least / 10 ^ d + 1) * 10 ^ d
  end.
Definition get_to_pad_num (num_walkers num_device : nat) : nat :=
  let least := num_walkers / num_device + 1 in target_num least (log10 least) * num_device - num_walkers.

(** ** make_step, run (824-885) *)
Section Step.
Variables (A V K : Type) (zero : A).                      (* walker data, result, keys *)
Variables (split : nat -> list K) (walker : A -> K -> V). (* jax.random.split; do_run_dmc_single_walker *)
Variables (nan_to_num : V -> V) (times : V -> nat -> V).  (* jnp.nan_to_num; multiplication by the mask *)
(** reshape (num_device, -1): [None] = the size is not divisible *)
Fixpoint chunks {T} (rows cols : nat) (l : list T) : list (list T) := match rows with O => [] | S r => firstn cols l :: chunks r cols (skipn cols l) end.
Definition reshape {T} (num_device : nat) (l : list T) : option (list (list T)) :=
  if Nat.eqb (length l mod num_device) 0 then Some (chunks num_device (length l / num_device) l) else None.
Fixpoint repeats {T} (l : list T) (counts : list nat) : list T := match l, counts with x :: l', c :: cs => repeat x c ++ repeats l' cs | _, _ => [] end.
Definition one_walker (x : nat * A * K) : V := times (nan_to_num (walker (snd (fst x)) (snd x))) (fst (fst x)).
Definition run (num_device : nat) (do_padding : bool) (walkers : list A) : option (list V) :=
  let n := length walkers in
  let pad := if do_padding then get_to_pad_num n num_device else 0 in
  let mask := repeat 1 n ++ repeat 0 pad in
  let position := walkers ++ repeat zero pad in
  match reshape num_device mask, reshape num_device position with
  | Some m, Some p =>
      match reshape num_device (split (n + pad)) with
      | Some k =>
          let result := map (fun d => map one_walker (combine (combine (fst (fst d)) (snd (fst d))) (snd d))) (combine (combine m p) k) in
          Some (if do_padding then repeats (concat result) (concat m) else concat result)
      | None => None
      end
  | _, _ => None
  end.
End Step.

(** ** utils.py: aggregates over hosts; a host is its device count and its local values *)
Open Scope Q_scope.
Definition qsum (l : list Q) : Q := fold_right Qplus 0 l.
Definition host := (nat * list Q)%type.
Definition nQ (n : nat) : Q := inject_Z (Z.of_nat n).
(** compute_sum of ones(local devices) * local value, over the devices of all hosts *)
Definition psum (local : host -> Q) (hosts : list host) : Q := qsum (map (fun h => qsum (repeat (local h) (fst h))) hosts).
Definition devices (hosts : list host) : nat := list_sum (map fst hosts).
(** 52-59, on a host with [here] devices *)
Definition agg_sum (here : nat) (hosts : list host) : Q := psum (fun h => qsum (snd h)) hosts / nQ here.
(** 42-48: the unweighted mean; each host contributes the mean of its own values *)
Definition mean (l : list Q) : Q := qsum l / nQ (length l).
Definition agg_mean (hosts : list host) : Q := psum (fun h => mean (snd h)) hosts / nQ (devices hosts).
(** dmc.py 901-905; int() truncates, epsilon = 1e-5 *)
Definition trunc (q : Q) : Z := Z.quot (Qnum q) (Zpos (Qden q)).
Definition success_over_all_hosts (here : nat) (flags : list (nat * bool)) (num_hosts : nat) : bool :=
  Z.eqb (trunc (agg_sum here (map (fun f : nat * bool => (fst f, [if snd f then 1 else 0]) : host) flags) + (1 # 100000))) (Z.of_nat num_hosts).
