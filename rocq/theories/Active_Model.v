(** Model of the structural activity analysis of /repo/src/jaqmc/optimizer/sr/jasr.py 841-937
    (get_structural_active_mask, get_active_input_positions, get_eqn_active_input_positions) and
    of the programs it inspects.

    Programs: a jaxpr has input variables, equations and output atoms.  The linearised program
    is specialised to the primal point, so residuals are constants: a primitive is any function
    of its operands and of the iteration counters of the enclosing scans ([its], innermost
    first), and the branch taken by a cond is a function of [its] only (the branch index is an
    integer and carries no tangent).  [jaxpr] equations with keys "jaxpr"/"call_jaxpr" (pjit,
    remat, custom calls) are [Call].  Arrays with a leading scan axis are values with [slice] and
    [stack].  A while loop is cut after [limit] rounds (its termination bound). *)
From Coq Require Import List Arith Bool.
Import ListNotations.

Section Programs.
Variable V : Type.
Inductive atom := Var (v : nat) | Lit (c : V).
Inductive jaxpr := J (invars : list nat) (body : eqns) (outvars : list atom)
with eqns := Done | Then (e : eqn) (rest : eqns)
with eqn :=
| Prim (f : list nat -> list V -> list V) (ins : list atom) (outs : list nat)
| Call (p : jaxpr) (ins : list atom) (outs : list nat)
| Cond (choose : list nat -> nat) (index : atom) (bs : branches) (ops : list atom) (outs : list nat)
| Scan (len nconst ncarry : nat) (p : jaxpr) (ins : list atom) (outs : list nat)
| While (limit ncond nbody : nat) (c p : jaxpr) (ins : list atom) (outs : list nat)
with branches := NoBranch | Branch (p : jaxpr) (rest : branches).

(** ** Evaluation (semantics of jax, not code of the repository) *)
Variables (dflt : V) (slice : V -> nat -> V) (stack : list V -> V) (truth : V -> bool).
Definition env := nat -> V.
Definition read (e : env) (a : atom) : V := match a with Var v => e v | Lit c => c end.
Fixpoint write (e : env) (outs : list nat) (vals : list V) : env :=
  match outs with [] => e | o :: outs' => write (fun v => if Nat.eqb v o then hd dflt vals else e v) outs' (tl vals) end.
(** one scan: carry and the outputs of the rounds, [k] rounds left *)
Fixpoint rounds (step : nat -> list V -> list V) (ncarry k it : nat) (carry : list V) : list V * list (list V) :=
  match k with
  | O => (carry, [])
  | S k' => let r := step it carry in let (c, ys) := rounds step ncarry k' (S it) (firstn ncarry r) in (c, skipn ncarry r :: ys)
  end.
Definition column (ys : list (list V)) (j : nat) : V := stack (map (fun r => nth j r dflt) ys).
Fixpoint loop (test : list V -> bool) (step : list V -> list V) (limit : nat) (carry : list V) : list V :=
  match limit with O => carry | S k => if test carry then loop test step k (step carry) else carry end.
Fixpoint eval_jaxpr (p : jaxpr) (its : list nat) (args : list V) : list V :=
  match p with J invars body outvars => let e := eval_eqns body its (write (fun _ => dflt) invars args) in map (read e) outvars end
with eval_eqns (es : eqns) (its : list nat) (e : env) : env :=
  match es with Done => e | Then q rest => eval_eqns rest its (eval_eqn q its e) end
with eval_eqn (q : eqn) (its : list nat) (e : env) : env :=
  match q with
  | Prim f ins outs => write e outs (f its (map (read e) ins))
  | Call p ins outs => write e outs (eval_jaxpr p its (map (read e) ins))
  | Cond choose _ bs ops outs => write e outs (eval_branch bs (choose its) its (map (read e) ops))
  | Scan len nconst ncarry p ins outs =>
      let args := map (read e) ins in
      let consts := firstn nconst args in let init := firstn ncarry (skipn nconst args) in let xs := skipn (nconst + ncarry) args in
      let r := rounds (fun it carry => eval_jaxpr p (it :: its) (consts ++ carry ++ map (fun x => slice x it) xs)) ncarry len 0 init in
      let ny := length outs - ncarry in
      write e outs (fst r ++ map (column (snd r)) (seq 0 ny))
  | While limit ncond nbody c p ins outs =>
      let args := map (read e) ins in
      let cc := firstn ncond args in let bc := firstn nbody (skipn ncond args) in let init := skipn (ncond + nbody) args in
      write e outs (loop (fun carry => truth (hd dflt (eval_jaxpr c its (cc ++ carry)))) (fun carry => eval_jaxpr p its (bc ++ carry)) limit init)
  end
with eval_branch (bs : branches) (i : nat) (its : list nat) (args : list V) : list V :=
  match bs with
  | NoBranch => []
  | Branch p NoBranch => eval_jaxpr p its args (* the index is clamped *)
  | Branch p rest => match i with O => eval_jaxpr p its args | S i' => eval_branch rest i' its args end
  end.

(** ** The analysis *)
Definition vars (l : list atom) : list nat := flat_map (fun a => match a with Var v => [v] | Lit _ => [] end) l.
Definition mem (x : nat) (l : list nat) : bool := existsb (Nat.eqb x) l.
Definition outs_of (q : eqn) : list nat :=
  match q with Prim _ _ o | Call _ _ o | Cond _ _ _ _ o | Scan _ _ _ _ _ o | While _ _ _ _ _ _ o => o end.
(** eqn.invars; a cond has its index first *)
Definition ins_of (q : eqn) : list atom :=
  match q with Prim _ i _ | Call _ i _ | Scan _ _ _ _ i _ | While _ _ _ _ _ i _ => i | Cond _ ix _ ops _ => ix :: ops end.
(** positions of [l] whose element is in [s] *)
Fixpoint hits (s : list nat) (l : list nat) (pos : nat) : list nat :=
  match l with [] => [] | x :: l' => (if mem x s then [pos] else []) ++ hits s l' (S pos) end.
(** 858-865: outputs selected by position, None = all *)
Definition selected (outvars : list atom) (sel : option (list nat)) : list nat :=
  match sel with None => vars outvars | Some ps => flat_map (fun p => match nth_error outvars p with Some (Var v) => [v] | _ => [] end) ps end.
(** 877-885 *)
Definition activate (act : list nat) (ins : list atom) (r : option (list nat)) : list nat :=
  match r with
  | None => vars ins ++ act
  | Some ps => flat_map (fun p => match nth_error ins p with Some (Var v) => [v] | _ => [] end) ps ++ act
  end.
(** 856-890 *)
Fixpoint active_jaxpr (p : jaxpr) (sel : option (list nat)) : list nat :=
  match p with J invars body outvars => hits (active_eqns body (selected outvars sel)) invars 0 end
(** 867-885: the equations in reverse order *)
with active_eqns (es : eqns) (act : list nat) : list nat :=
  match es with
  | Done => act
  | Then q rest =>
      let act' := active_eqns rest act in
      let pos := hits act' (outs_of q) 0 in
      match pos with [] => act' | _ => activate act' (ins_of q) (active_eqn q pos) end
  end
(** 892-927 *)
with active_eqn (q : eqn) (pos : list nat) : option (list nat) :=
  match q with
  | Prim _ _ _ => None
  | Call p _ _ => Some (active_jaxpr p (Some pos))
  | Cond _ _ bs _ _ => Some (map S (active_branches bs pos))
  | Scan _ _ _ p _ _ => Some (active_jaxpr p (Some pos))
  | While _ _ _ c p _ _ => Some (active_jaxpr c None ++ active_jaxpr p None)
  end
with active_branches (bs : branches) (pos : list nat) : list nat :=
  match bs with NoBranch => [] | Branch p rest => active_jaxpr p (Some pos) ++ active_branches rest pos end.
(** 841-853: one flag per parameter leaf *)
Definition active_mask (p : jaxpr) (leaves : nat) : list bool := map (fun i => mem i (active_jaxpr p None)) (seq 0 leaves).
End Programs.
