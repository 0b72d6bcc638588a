(** C44: what the activity analysis must guarantee, and for which loops it does. *)
From Coq Require Import List Arith.
From Verif Require Import Active_Model.
Import ListNotations.

Section Spec.
Variables (V : Type) (dflt : V) (slice : V -> nat -> V) (stack : list V -> V) (truth : V -> bool).
(** equal at the given positions *)
Definition agree (ps : list nat) (a b : list V) : Prop := forall i, In i ps -> nth i a dflt = nth i b dflt.
(** The outputs are determined by the inputs at positions [ps]: no other input influences them. *)
Definition determined (p : jaxpr V) (ps : list nat) : Prop :=
  forall its a b, agree ps a b -> eval_jaxpr V dflt slice stack truth p its a = eval_jaxpr V dflt slice stack truth p its b.

(** Loops for which one backward pass over the body is enough.  Scan: every carry that is read
    is among the outputs the pass started from (and the operand counts are consistent).  While:
    no closed-over constants, and every requested carry is read. *)
Definition carry_closed (len nconst ncarry : nat) (pos found : list nat) : Prop :=
  (forall k, k < ncarry -> In (nconst + k) found -> In k pos) /\ (forall k, k < ncarry -> In k pos -> len = 0 -> In (nconst + k) found).
Fixpoint closed_jaxpr (p : jaxpr V) (sel : option (list nat)) : Prop :=
  match p with J _ invars body outvars => closed_eqns body (selected V outvars sel) end
with closed_eqns (es : eqns V) (act : list nat) : Prop :=
  match es with
  | Done _ => True
  | Then _ q rest => closed_eqns rest act /\ (hits (active_eqns V rest act) (outs_of V q) 0 <> [] -> closed_eqn q (hits (active_eqns V rest act) (outs_of V q) 0))
  end
with closed_eqn (q : eqn V) (pos : list nat) : Prop :=
  match q with
  | Prim _ _ _ _ => True
  | Call _ p _ _ => closed_jaxpr p (Some pos)
  | Cond _ _ _ bs _ _ => closed_branches bs pos
  | Scan _ len nconst ncarry p ins _ =>
      closed_jaxpr p (Some pos) /\ carry_closed len nconst ncarry pos (active_jaxpr V p (Some pos)) /\
      nconst + ncarry <= length ins /\ match p with J _ _ _ outvars => ncarry <= length outvars end
  | While _ _ ncond nbody c p _ _ =>
      ncond = 0 /\ nbody = 0 /\ closed_jaxpr c None /\ closed_jaxpr p None /\ forall k, In k pos -> In k (active_jaxpr V c None ++ active_jaxpr V p None)
  end
with closed_branches (bs : branches V) (pos : list nat) : Prop :=
  match bs with NoBranch _ => True | Branch _ p rest => closed_jaxpr p (Some pos) /\ closed_branches rest pos end.

(** Programs without loops (straight-line code, nested calls and conds). *)
Fixpoint straight_jaxpr (p : jaxpr V) : Prop := match p with J _ _ body _ => straight_eqns body end
with straight_eqns (es : eqns V) : Prop := match es with Done _ => True | Then _ q rest => straight_eqn q /\ straight_eqns rest end
with straight_eqn (q : eqn V) : Prop :=
  match q with Prim _ _ _ _ => True | Call _ p _ _ => straight_jaxpr p | Cond _ _ _ bs _ _ => straight_branches bs | Scan _ _ _ _ _ _ _ | While _ _ _ _ _ _ _ _ => False end
with straight_branches (bs : branches V) : Prop := match bs with NoBranch _ => True | Branch _ p rest => straight_jaxpr p /\ straight_branches rest end.

(** the arguments with leaf [i] replaced *)
Definition put (i : nat) (v : V) (l : list V) : list V := firstn i l ++ match skipn i l with [] => [] | _ :: r => v :: r end.
(** Leaf [i] cannot influence the program: whatever value it takes, the outputs are the same. *)
Definition no_influence (p : jaxpr V) (i : nat) : Prop :=
  forall its args v, eval_jaxpr V dflt slice stack truth p its (put i v args) = eval_jaxpr V dflt slice stack truth p its args.
End Spec.
