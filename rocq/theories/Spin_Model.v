(** Model of the S^2 estimator: estimator/spin.py.

    Electron rows have any type [P]; [phase_logpsi] returns the phase and the logarithm of
    the modulus, [None] being -inf (psi = 0). Parameters are left out. *)
From Coq Require Import Reals Arith List.
From Coquelicot Require Import Coquelicot.
Import ListNotations.
Open Scope R_scope.

(** Sums in order over [0, n): jnp.sum. *)
Fixpoint zsum (n : nat) (f : nat -> C) : C := match n with O => RtoC 0 | S k => Cplus (zsum k f) (f k) end.

(** init: spin.py 58-75. Index of the j-th majority and of the i-th minority electron, and
    their numbers; ties: minority = up. *)
Definition n_major (up down : nat) : nat := if Nat.ltb down up then up else down.
Definition n_minor (up down : nat) : nat := if Nat.ltb down up then down else up.
Definition major (up down j : nat) : nat := if Nat.ltb down up then j else (up + j)%nat.
Definition minor (up down i : nat) : nat := if Nat.ltb down up then (up + i)%nat else i.
Definition sz (up down : nat) : R := Rabs (INR up - INR down) * (1 / 2).

(** _swap_with_majority: spin.py 137-151. Two updates of the index array, then a gather. *)
Definition set_at (perm : nat -> nat) (k v : nat) : nat -> nat := fun i => if Nat.eqb i k then v else perm i.
Definition swapped {P} (r : nat -> P) (mi ma : nat) : nat -> P :=
  let perm := set_at (fun i => i) mi ma in
  let perm := set_at perm ma mi in
  fun i => r (perm i).

(** jax.scipy.special.logsumexp(a, b=b, return_sign=True): with the largest finite entry (0
    if there is none) subtracted. Library function; the result is (log|sum|, sum/|sum|),
    (-inf, 0) for a zero sum. *)
Definition omax (a b : option R) : option R :=
  match a, b with Some x, Some y => Some (Rmax x y) | Some x, None => Some x | None, y => y end.
Fixpoint amax (n : nat) (a : nat -> option R) : option R := match n with O => None | S k => omax (amax k a) (a k) end.
Definition oexp (a : option R) : R := match a with Some x => exp x | None => 0 end.
Definition osub (a : option R) (x : R) : option R := match a with Some y => Some (y - x) | None => None end.
Definition logsumexp (n : nat) (a : nat -> option R) (b : nat -> C) : option R * C :=
  let m := match amax n a with Some x => x | None => 0 end in
  let out := zsum n (fun j => Cmult (b j) (RtoC (oexp (osub (a j) m)))) in
  if Req_EM_T (Cmod out) 0 then (None, RtoC 0) else (Some (ln (Cmod out) + m), Cdiv out (RtoC (Cmod out))).

(** _ratio_sum_one_electron: spin.py 104-135. [orig] is finite. *)
Definition ratio_one {P} (up down : nat) (plp : (nat -> P) -> C * option R) (r : nat -> P) (s0 : C) (l0 : R) (mi : nat) : C :=
  let w j := plp (swapped r mi (major up down j)) in
  let res := logsumexp (n_major up down) (fun j => osub (snd (w j)) l0) (fun j => Cmult (fst (w j)) (Cconj s0)) in
  Cminus (RtoC 1) (Cmult (snd res) (RtoC (oexp (fst res)))).

(** evaluate_single_walker and _sum_wf_ratios: spin.py 77-102; None if psi = 0 at the walker
    (log psi = -inf, the result is NaN). *)
Definition s2_local {P} (up down : nat) (plp : (nat -> P) -> C * option R) (r : nat -> P) : option C :=
  match plp r with
  | (s0, Some l0) => Some (Cplus (RtoC (sz up down * (sz up down + 1))) (zsum (n_minor up down) (fun i => ratio_one up down plp r s0 l0 (minor up down i))))
  | (_, None) => None
  end.
