(** Model of /repo/src/jaqmc/laplacian/interpreter.py: JaxExprEnvironment (38-109) and the
    equation loop of eval_jaxpr_with_forward_laplacian (112-137).

    Simplifications: variables are natural numbers; the value of an equation is any partial
    function of the values it reads ([None] = the handler raises), so the theorems hold for
    every dispatch table (_eval_eqn, 140-168); [raise] is the [None] result; a result of
    a primitive without multiple results is already wrapped in a list (line 133-134). *)
From Coq Require Import List ZArith Bool Arith.
Import ListNotations.
Open Scope Z_scope.

Section Interp.
Context {V : Type}.
Definition var := nat.
Inductive atom := Lit (x : V) | Var (v : var).
Record eqn := { ins : list atom; outs : list var; op : list V -> option (list V) }.
Record jaxpr := { constvars : list var; invars : list var; eqns : list eqn; outvars : list atom }.

(** self.env and self.reference_counter (a defaultdict(int)) *)
Record env := { store : var -> option V; cnt : var -> Z }.
Definition upd {A} (f : var -> A) (v : var) (x : A) : var -> A := fun w => if Nat.eqb w v then x else f w.

(** np.iinfo(np.int32).max, line 76 *)
Definition int32_max : Z := 2147483647.
Definition vars_of (l : list atom) : list var := flat_map (fun a => match a with Lit _ => [] | Var v => [v] end) l.
(** lines 63-67: +1 for each non-literal invar and constvar; 68-73: +1 for each read;
    74-78: outputs are pinned *)
Definition bump (c : var -> Z) (v : var) : var -> Z := upd c v (c v + 1).
Definition init_counter (j : jaxpr) : var -> Z :=
  let c1 := fold_left bump (invars j ++ constvars j) (fun _ => 0) in
  let c2 := fold_left bump (flat_map (fun e => vars_of (ins e)) (eqns j)) c1 in
  fold_left (fun c v => upd c v int32_max) (vars_of (outvars j)) c2.

(** write, lines 93-96 *)
Definition write (s : env) (v : var) (x : V) : env :=
  if (0 <? cnt s v)%Z then {| store := upd (store s) v (Some x); cnt := cnt s |} else s.
(** write_many, lines 102-109: [map] stops at the shorter list *)
Fixpoint write_many (s : env) (vs : list var) (xs : list V) : env :=
  match vs, xs with v :: vs', x :: xs' => write_many (write s v x) vs' xs' | _, _ => s end.
(** read, lines 82-91: [None] = KeyError *)
Definition read (s : env) (a : atom) : option (V * env) :=
  match a with
  | Lit x => Some (x, s)
  | Var v =>
      let c := cnt s v - 1 in
      match store s v with
      | None => None
      | Some x =>
          if (c =? 0)%Z then Some (x, {| store := upd (store s) v None; cnt := upd (cnt s) v 0 |})
          else Some (x, {| store := store s; cnt := upd (cnt s) v c |})
      end
  end.
Fixpoint read_many (s : env) (l : list atom) : option (list V * env) :=
  match l with
  | [] => Some ([], s)
  | a :: l' => match read s a with
               | None => None
               | Some (x, s1) => match read_many s1 l' with None => None | Some (xs, s2) => Some (x :: xs, s2) end
               end
  end.
(** lines 120-135 *)
Fixpoint run (s : env) (es : list eqn) : option env :=
  match es with
  | [] => Some s
  | e :: es' => match read_many s (ins e) with
                | None => None
                | Some (xs, s1) => match op e xs with
                                   | None => None
                                   | Some ys => run (write_many s1 (outs e) ys) es'
                                   end
                end
  end.
(** __init__, lines 56-80 *)
Definition init (j : jaxpr) (consts args : list V) : env :=
  write_many (write_many {| store := fun _ => None; cnt := init_counter j |} (constvars j) consts) (invars j) args.
(** eval_jaxpr_with_forward_laplacian, lines 112-137 *)
Definition eval (j : jaxpr) (consts args : list V) : option (list V) :=
  match run (init j consts args) (eqns j) with
  | None => None
  | Some s => option_map fst (read_many s (outvars j))
  end.
End Interp.
Arguments atom : clear implicits.
Arguments eqn : clear implicits.
Arguments jaxpr : clear implicits.
Arguments env : clear implicits.
