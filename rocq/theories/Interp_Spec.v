(** Specification for C40: evaluation of a straight-line program with an environment that
    keeps every value for ever. *)
From Coq Require Import List ZArith Arith.
From Verif Require Import Interp_Model.
Import ListNotations.

Section Spec.
Context {V : Type}.
Definition memory := nat -> option V.
Definition look (m : memory) (a : atom V) : option V := match a with Lit x => Some x | Var v => m v end.
Fixpoint look_all (m : memory) (l : list (atom V)) : option (list V) :=
  match l with
  | [] => Some []
  | a :: l' => match look m a, look_all m l' with Some x, Some xs => Some (x :: xs) | _, _ => None end
  end.
Fixpoint put_all (m : memory) (vs : list nat) (xs : list V) : memory :=
  match vs, xs with v :: vs', x :: xs' => put_all (fun w => if Nat.eqb w v then Some x else m w) vs' xs' | _, _ => m end.
Fixpoint plain_run (m : memory) (es : list (eqn V)) : option memory :=
  match es with
  | [] => Some m
  | e :: es' => match look_all m (ins e) with
                | None => None
                | Some xs => match op e xs with None => None | Some ys => plain_run (put_all m (outs e) ys) es' end
                end
  end.
Definition plain_init (j : jaxpr V) (consts args : list V) : memory :=
  put_all (put_all (fun _ => None) (constvars j) consts) (invars j) args.
Definition plain_eval (j : jaxpr V) (consts args : list V) : option (list V) :=
  match plain_run (plain_init j consts args) (eqns j) with None => None | Some m => look_all m (outvars j) end.

(** How often the program mentions [v] as an operand, and as a result. *)
Definition mentions (v : nat) (l : list (atom V)) : nat :=
  length (filter (fun a => match a with Lit _ => false | Var w => Nat.eqb w v end) l).
Definition operand_uses (v : nat) (es : list (eqn V)) : nat := list_sum (map (fun e => mentions v (ins e)) es).
Definition result_uses (v : nat) (j : jaxpr V) : nat := mentions v (outvars j).
End Spec.
Arguments memory : clear implicits.
