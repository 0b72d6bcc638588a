(** Specification for C65-C67: exchanging electrons, and the number a (sign, log) pair stands for. *)
From Coq Require Import Reals List Arith.
From Coquelicot Require Import Coquelicot.
From Verif Require Import Wf_Model.
Open Scope R_scope.

(** Electrons a and b exist and have the same spin (the first [fst ns] electrons are up). *)
Definition same_spin (ns : nat * nat) (a b : nat) : Prop :=
  (a < fst ns /\ b < fst ns)%nat \/ (fst ns <= a < fst ns + snd ns /\ fst ns <= b < fst ns + snd ns)%nat.
(** The configuration with electrons a and b exchanged. *)
Definition exchange {A} (a b : nat) (e : nat -> A) : nat -> A :=
  fun i => if Nat.eqb i a then e b else if Nat.eqb i b then e a else e i.

(** The wavefunction value psi = sign * exp(logpsi) of a real output; None when it is not a number. *)
Definition psi (o : real_out) : option R :=
  match sign_logpsi o, logpsi o with
  | Some s, Fin l => Some (s * exp l)
  | Some _, NegInf => Some 0
  | _, _ => None
  end.
(** The same for a complex output, exp(logpsi). *)
Definition cpsi (o : complex_out) : option C :=
  match o with CFin z => Some (Cmult (RtoC (exp (fst z))) (cos (snd z), sin (snd z))) | CNegInf => Some (RtoC 0) | CNaN => None end.

(** What a caller of phase_logpsi sees when the electrons are exchanged: the same log, the opposite sign. *)
Definition opposite (o o' : real_out) : Prop := logpsi o' = logpsi o /\ sign_logpsi o' = option_map Ropp (sign_logpsi o).
(** Complex case: the same log|psi|, the opposite phase; equal when psi is 0 or not a number. *)
Definition copposite (o o' : complex_out) : Prop :=
  match o, o' with
  | CFin z, CFin z' => fst z' = fst z /\ (cos (snd z'), sin (snd z')) = Copp (cos (snd z), sin (snd z))
  | CNegInf, CNegInf => True
  | CNaN, CNaN => True
  | _, _ => False
  end.
