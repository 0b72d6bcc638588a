(** Model of the control flow of /repo/src/jaqmc/laplacian/interpreter.py: dispatch (140-168),
    scan (171-268), while (271-318), named calls (321-337), and initialisation (360-392).

    A block is a (sub)program: what it computes on plain arrays, what JAX's tracing finds out
    about its outputs (which of them are LapTuples, given which inputs are; None = an exception
    while tracing), and what the interpreter computes.

    Simplifications: as in Lap_Model.v (exact arithmetic, flat arrays, dense LapTuples: sparse
    ones are made dense first, interpreter.py 175-181, 283-289). [jax.lax.scan] and
    [jax.lax.while_loop] are JAX's: they call the body once per step, and raise TypeError when the
    body's carry does not have the pytree structure of the initial carry, which here means: the
    same leaves are LapTuples. Loops in the model give up after [fuel] iterations ([Running]). *)
From Coq Require Import Reals String List Arith Bool.
From Coquelicot Require Import Complex.
From Verif Require Import Lin Lap_Spec Lap_Lang Lap_Model Fl_Spec Fl_Model.
Import ListNotations.
Open Scope list_scope.
Open Scope R_scope.

Inductive outcome (A : Type) := Done (a : A) | Raised | Running.
Arguments Done {A}. Arguments Raised {A}. Arguments Running {A}.
Record block := { b_plain : list arr -> outcome (list arr); b_trace : list bool -> option (list bool); b_run : list value -> outcome (list value) }.

Definition kinds : list value -> list bool := map is_tracked.
Definition zero_lap : lap := {| lx := zero_arr; jac := fun _ => zero_arr; lapl := zero_arr |}.
Definition dummy (b : bool) : value := if b then Tracked zero_lap else Plain zero_arr.
(** interpreter.py 112-137 for a straight-line jaxpr with output variables [outs] (the loop itself
    is run_lap of Lap_Model.v) *)
Definition straight (n : nat) (prog : list instr) (outs : list nat) : block :=
  {| b_plain := fun env => Done (map (nthv zero_arr (run_prim prog env)) outs);
     b_trace := fun ks => Some (map (fun o => is_tracked (nthv (Plain zero_arr) (run_lap n prog (map dummy ks)) o)) outs);
     b_run := fun env => Done (map (nthv (Plain zero_arr) (run_lap n prog env)) outs) |}.
(** interpreter.py 144-151: no LapTuple among the inputs -> the primitive itself *)
Definition dispatch (nout : nat) (b : block) : block :=
  {| b_plain := b_plain b;
     b_trace := fun ks => if existsb (fun k => k) ks then b_trace b ks else Some (repeat false nout);
     b_run := fun env => if existsb is_tracked env then b_run b env
                         else match b_plain b (map primal env) with Done vs => Done (map Plain vs) | Raised => Raised | Running => Running end |}.

(** ** scan *)
Definition slice (size t : nat) (a : arr) : arr := fun i => a (t * size + i)%nat.
(** 215-226: the Jacobian's time axis is moved to the front, so a step sees (n, ...) *)
Definition slice_value (size t : nat) (v : value) : value :=
  match v with
  | Plain a => Plain (slice size t a)
  | Tracked l => Tracked {| lx := slice size t (lx l); jac := fun k => slice size t (jac l k); lapl := slice size t (lapl l) |}
  end.
Fixpoint slices {A} (slc : nat -> nat -> A -> A) (sizes : list nat) (t : nat) (xs : list A) : list A :=
  match sizes, xs with size :: sizes', x :: xs' => slc size t x :: slices slc sizes' t xs' | _, _ => [] end.
Definition stack (size : nat) (ys : nat -> arr) : arr := fun o => ys (o / size)%nat (o mod size)%nat.
(** 255-267: stacked LapTuples, Jacobian axis moved back to the front *)
Definition stack_value (tracked : bool) (size : nat) (ys : nat -> value) : value :=
  if tracked then Tracked {| lx := stack size (fun t => primal (ys t)); jac := fun k => stack size (fun t => jac_of (ys t) k); lapl := stack size (fun t => lapl_of (ys t)) |}
  else Plain (stack size (fun t => primal (ys t))).
(** jax.lax.scan over the given step indices; [ys] records each step's outputs *)
Fixpoint scan_loop {A} (body : list A -> outcome (list A)) (slc : nat -> nat -> A -> A) (ncarry : nat) (sizes : list nat) (consts xs : list A)
  (steps : list nat) (carry : list A) (ys : nat -> list A) : outcome (list A * (nat -> list A)) :=
  match steps with
  | [] => Done (carry, ys)
  | t :: steps' =>
      match body (consts ++ carry ++ slices slc sizes t xs) with
      | Done out => scan_loop body slc ncarry sizes consts xs steps' (firstn ncarry out) (fun u => if Nat.eqb u t then skipn ncarry out else ys u)
      | Raised => Raised
      | Running => Running
      end
  end.
Record scan_params := { sc_nconst : nat; sc_ncarry : nat; sc_length : nat; sc_reverse : bool;
  sc_float : list bool; (* which carries are floating or complex *)
  sc_xsizes : list nat; sc_ysizes : list nat }. (* sizes of one slice *)
Definition scan_steps (s : scan_params) : list nat := if sc_reverse s then rev (seq 0 (sc_length s)) else seq 0 (sc_length s).
Definition consts_of {A} (s : scan_params) (env : list A) : list A := firstn (sc_nconst s) env.
Definition carry_of {A} (s : scan_params) (env : list A) : list A := firstn (sc_ncarry s) (skipn (sc_nconst s) env).
Definition xs_of {A} (s : scan_params) (env : list A) : list A := skipn (sc_ncarry s) (skipn (sc_nconst s) env).
(** 194-213: plain floating carries become LapTuples with zero derivatives *)
Definition promote (float : bool) (v : value) : value :=
  match v with Plain a => if float then Tracked {| lx := a; jac := fun _ => zero_arr; lapl := zero_arr |} else v | Tracked _ => v end.
Fixpoint zip_with {A B D} (f : A -> B -> D) (l : list A) (m : list B) : list D := match l, m with a :: l', b :: m' => f a b :: zip_with f l' m' | _, _ => [] end.
Definition beq_list (l m : list bool) : bool := if list_eq_dec bool_dec l m then true else false.
Definition scan (s : scan_params) (body : block) : block :=
  let tr := fun ks =>
      let carry := zip_with orb (sc_float s) (carry_of s ks) in
      match b_trace body (consts_of s ks ++ carry ++ xs_of s ks) with
      | Some out => if beq_list (firstn (sc_ncarry s) out) carry then Some out else None
      | None => None
      end in
  {| b_plain := fun env =>
       match scan_loop (b_plain body) slice (sc_ncarry s) (sc_xsizes s) (consts_of s env) (xs_of s env) (scan_steps s) (carry_of s env) (fun _ => []) with
       | Done (carry, ys) => Done (carry ++ map (fun j => stack (nth j (sc_ysizes s) 0%nat) (fun t => nth j (ys t) zero_arr)) (seq 0 (length (sc_ysizes s))))
       | Raised => Raised | Running => Running end;
     b_trace := tr;
     b_run := fun env =>
       match tr (kinds env) with
       | None => Raised
       | Some ks =>
         match scan_loop (b_run body) slice_value (sc_ncarry s) (sc_xsizes s) (consts_of s env) (xs_of s env) (scan_steps s) (zip_with promote (sc_float s) (carry_of s env)) (fun _ => []) with
         | Done (carry, ys) => Done (carry ++ map (fun j => stack_value (nth (sc_ncarry s + j) ks false) (nth j (sc_ysizes s) 0%nat) (fun t => nth j (ys t) (Plain zero_arr))) (seq 0 (length (sc_ysizes s))))
         | Raised => Raised | Running => Running end
       end |}.

(** ** while *)
Fixpoint while_loop {A} (cond : list A -> outcome bool) (body : list A -> outcome (list A)) (fuel : nat) (carry : list A) : outcome (list A) :=
  match fuel with
  | O => Running
  | S fuel' =>
      match cond carry with
      | Done false => Done carry
      | Done true => match body carry with Done c => while_loop cond body fuel' c | Raised => Raised | Running => Running end
      | Raised => Raised
      | Running => Running
      end
  end.
Definition truth (o : outcome (list arr)) : outcome bool :=
  match o with Done (a :: _) => Done (if Req_EM_T (a 0%nat) 0 then false else true) | Done [] => Raised | Raised => Raised | Running => Running end.
(** 271-318: the condition sees values only; nothing is promoted *)
Definition while (ncc nbc fuel : nat) (cond body : block) : block :=
  let tr := fun ks =>
      let carry := skipn nbc (skipn ncc ks) in
      match b_trace body (firstn nbc (skipn ncc ks) ++ carry) with
      | Some out => if beq_list out carry then Some out else None
      | None => None
      end in
  {| b_plain := fun env =>
       while_loop (fun c => truth (b_plain cond (firstn ncc env ++ c))) (fun c => b_plain body (firstn nbc (skipn ncc env) ++ c)) fuel (skipn nbc (skipn ncc env));
     b_trace := tr;
     b_run := fun env =>
       match tr (kinds env) with
       | None => Raised
       | Some _ =>
         while_loop (fun c => truth (b_plain cond (map primal (firstn ncc env ++ c)))) (fun c => b_run body (firstn nbc (skipn ncc env) ++ c)) fuel (skipn nbc (skipn ncc env))
       end |}.
(** The slogdet rule (slogdet.py, Fl_Model.v) on a real m by m matrix stored row by row; [inv] is
    jnp.linalg.inv. A sparse LapTuple is made dense first (slogdet.py 36-42). *)
Definition as_matrix (m : nat) (a : arr) : nat * nat -> C := fun i => RtoC (a (fst i * m + snd i)%nat).
Definition real_part (v : cvalue unit) : value :=
  match v with
  | CPlain a => Plain (fun _ => fst (a tt))
  | CTracked t => Tracked {| lx := fun _ => fst (c_x t tt); jac := fun k _ => fst (c_jac t k tt); lapl := fun _ => fst (c_lapl t tt) |}
  end.
Definition slogdet_plain (m : nat) (a : arr) : list arr :=
  let sl := slogdet m (as_matrix m a) in [fun _ => fst (fst sl); fun _ => fst (snd sl)].
Definition slogdet_block (n m : nat) (inv : (nat * nat -> C) -> nat * nat -> C) : block :=
  {| b_plain := fun env => match env with a :: _ => Done (slogdet_plain m a) | [] => Raised end;
     b_trace := fun ks => match ks with k :: _ => Some [false; k] | [] => None end;
     b_run := fun env =>
       match env with
       | Tracked t :: _ =>
           let r := handle_slogdet n m false (inv (as_matrix m (lx t))) {| c_x := as_matrix m (lx t); c_jac := fun k => as_matrix m (jac t k); c_lapl := as_matrix m (lapl t) |} in
           Done [real_part (fst r); real_part (snd r)]
       | Plain a :: _ => Done (map Plain (slogdet_plain m a)) (* slogdet.py 44-46 *)
       | [] => Raised
       end |}.
(** 321-337: a jitted function is looked up by its NAME; only an unregistered one is inlined. The
    handler's outputs are paired with the call's [nout] output variables (103-109: map stops at the
    shorter list). *)
Definition jit (registry : string -> option block) (name : string) (nout : nat) (sub : block) : block :=
  {| b_plain := b_plain sub;
     b_trace := fun ks => match registry name with Some h => option_map (firstn nout) (b_trace h ks) | None => b_trace sub ks end;
     b_run := fun env => match registry name with
                         | Some h => match b_run h env with Done vs => Done (firstn nout vs) | Raised => Raised | Running => Running end
                         | None => b_run sub env end |}.
(** registry.py 26-79 with slogdet.py 76-78: the only name registered *)
Definition named_rules (n m : nat) inv (name : string) : option block := if String.eqb name "slogdet"%string then Some (slogdet_block n m inv) else None.
(** 360-392: all-or-nothing *)
Definition init_state (w : vec) (args : list value) (offsets : list nat) : list value :=
  if existsb is_tracked args then args
  else zip_with (fun v off => Tracked {| lx := primal v; jac := fun k i => delta k (off + i) * w (off + i)%nat; lapl := fun _ => 0 |}) args offsets.
