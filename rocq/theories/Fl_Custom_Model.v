(** Model of user-defined rules: /repo/src/jaqmc/laplacian/custom_rules.py and
    primitives/custom_laplacian.py (jax.vmap and the jit cache are JAX's).

    Simplifications: as in Fl_Loop_Model.v; pytrees of arguments are flattened (111, 253-258); a rule
    is a block whose [b_plain] is the decorated function and whose [b_run] is the handwritten
    rule. Whether it asks for the dense fallback depends on static information only, here on which
    arguments are tracked. *)
From Coq Require Import Reals List Arith Bool.
From Verif Require Import Lin Lap_Lang Lap_Model Fl_Loop_Model.
Import ListNotations.
Open Scope list_scope.

(** ** vmap of a rule (custom_laplacian.py 40-88) *)
(** jnp.take along an axis of length [B] with [inner] elements per step behind it *)
Definition take_axis (B inner b : nat) (a : arr) : arr := fun j => a ((j / inner * B + b) * inner + j mod inner)%nat.
(** 52-68: which element of a batched argument a rule sees; [Some (outer, inner)]: mapped, with
    [outer] elements before the mapped axis and [inner] behind it. The Jacobian has one more axis
    in front (in_axes axis + 1), so [outer] does not matter for it but its size does. *)
Definition axis_spec := option (nat * nat).
Definition element_plain (B b : nat) (s : axis_spec) (a : arr) : arr := match s with None => a | Some (_, inner) => take_axis B inner b a end.
Definition element (B b : nat) (s : axis_spec) (v : value) : value :=
  match s, v with
  | Some (outer, inner), Tracked t =>
      let size := (outer * inner)%nat in
      let whole : arr := fun o => jac t (o / (B * size))%nat (o mod (B * size))%nat in
      Tracked {| lx := take_axis B inner b (lx t); jac := fun k j => take_axis B inner b whole (k * size + j)%nat; lapl := take_axis B inner b (lapl t) |}
  | Some (_, inner), Plain a => Plain (take_axis B inner b a)
  | None, _ => v
  end.
(** jax.vmap: the function on every batch element, in any order *)
Fixpoint vmap_loop {A} (f : list A -> outcome (list A)) (args : nat -> list A) (steps : list nat) : outcome (list (list A)) :=
  match steps with
  | [] => Done []
  | b :: steps' => match f (args b) with
                   | Done out => match vmap_loop f args steps' with Done outs => Done (out :: outs) | Raised => Raised | Running => Running end
                   | Raised => Raised | Running => Running end
  end.
(** 71-84: vmap stacks the outputs along a new first axis: a Jacobian becomes (B, n, ...), and is
    moved back to (n, B, ...) *)
Definition stack_output (n : nat) (tracked : bool) (size : nat) (ys : nat -> value) : value :=
  if tracked then
    let raw : arr := fun o => jac_of (ys (o / (n * size))%nat) (o / size mod n)%nat (o mod size)%nat in
    Tracked {| lx := stack size (fun b => primal (ys b)); jac := fun k o => raw ((o / size * n + k) * size + o mod size)%nat; lapl := stack size (fun b => lapl_of (ys b)) |}
  else Plain (stack size (fun b => primal (ys b))).
Definition vmap (n B : nat) (specs : list axis_spec) (ysizes : list nat) (rule : block) : block :=
  {| b_plain := fun env =>
       match vmap_loop (b_plain rule) (fun b => zip_with (element_plain B b) specs env) (seq 0 B) with
       | Done outs => Done (map (fun j => stack (nth j ysizes 0%nat) (fun b => nth j (nth b outs []) zero_arr)) (seq 0 (length ysizes)))
       | Raised => Raised | Running => Running end;
     b_trace := b_trace rule;
     b_run := fun env =>
       match b_trace rule (kinds env) with
       | None => Raised
       | Some ks =>
         match vmap_loop (b_run rule) (fun b => zip_with (element B b) specs env) (seq 0 B) with
         | Done outs => Done (map (fun j => stack_output n (nth j ks false) (nth j ysizes 0%nat) (fun b => nth j (nth b outs []) (Plain zero_arr))) (seq 0 (length ysizes)))
         | Raised => Raised | Running => Running end
       end |}.
(** 50-88: the recorded vmaps are replayed, innermost (oldest) first *)
Fixpoint vmaps (n : nat) (history : list (nat * list axis_spec)) (ysizes : list nat) (rule : block) : block :=
  match history with
  | [] => rule
  | (B, specs) :: older => vmaps n older (map (fun z => B * z)%nat ysizes) (vmap n B specs ysizes rule)
  end.

(** ** The handler (custom_laplacian.py 191-232) *)
Record custom_rule := { r_block : block; r_declines : list bool -> bool }. (* declines: raises AutoLaplacianFallback *)
Definition handle_custom (n : nat) (history : list (nat * list axis_spec)) (ysizes : list nat) (rule : option custom_rule) (primal_block : block) : block :=
  {| b_plain := b_plain primal_block;
     b_trace := fun ks => if existsb (fun k => k) ks then
                  match rule with
                  | None => None
                  | Some r => if r_declines r ks then b_trace primal_block ks else b_trace (vmaps n history ysizes (r_block r)) ks
                  end else None;
     b_run := fun env => if existsb is_tracked env then
                match rule with
                | None => Raised                                   (* ValueError, 203-207 *)
                | Some r => if r_declines r (kinds env) then b_run primal_block env
                            else b_run (vmaps n history ysizes (r_block r)) env
                end else Raised |}.                                (* RuntimeError, 197-200 *)

(** ** The wrapper (custom_rules.py 107-117) and the jit cache *)
Inductive call := PlainCall | TypeError | Staged.
Definition wrapped (tracing kwargs : bool) : call := if tracing then (if kwargs then TypeError else Staged) else PlainCall.
(** A jitted function with the call inside: jax.jit traces it once per argument shape and reuses
    the result; the flag read at 108 is not part of the key. *)
Definition jit_call (cache : option call) (tracing : bool) : call * option call :=
  match cache with Some c => (c, cache) | None => let c := wrapped tracing false in (c, Some c) end.
Fixpoint jit_calls (cache : option call) (calls : list bool) : list call :=
  match calls with [] => [] | t :: calls' => let (c, cache') := jit_call cache t in c :: jit_calls cache' calls' end.
(** custom_laplacian.py 239-256: registering replaces; [entries] maps ids to rules *)
Definition registry := list (nat * option custom_rule).
Definition create_entry (r : registry) : registry * nat := let id := S (length r) in ((id, None) :: r, id).
Definition set_rule (r : registry) (id : nat) (rule : custom_rule) : registry := map (fun e => if Nat.eqb (fst e) id then (id, Some rule) else e) r.
Definition rule_of (r : registry) (id : nat) : option custom_rule := match find (fun e => Nat.eqb (fst e) id) r with Some e => snd e | None => None end.
