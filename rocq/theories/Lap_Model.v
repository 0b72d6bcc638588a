(** Model of the dense rules of /repo/src/jaqmc/laplacian: types.py (LapTuple 20-118),
    seed.py (make_laplacian_input 66-121), jvp.py, hessian.py, primitives/core.py (the wrap functions),
    primitives/elementwise.py, arithmetic.py, selection.py, reductions.py, shape.py,
    dot_general.py and the equation dispatch of interpreter.py 140-168.

    Simplifications: exact real arithmetic; an array is a function on flat element indices,
    so reshapes, transposes, slices, broadcasts, gathers and concatenations are index maps;
    what JAX's own jvp returns for a primitive is the derivative the primitive's record
    carries (JAX is trusted); programs are lists of equations that refer to earlier values
    by position (the interpreter's environment is the subject of C40). *)
From Coq Require Import Reals List Arith Bool.
From Verif Require Import Lin Lap_Spec Lap_Lang.
Import ListNotations.
Open Scope R_scope.

(** types.py 20-118: value, Jacobian (leading axis = tracked coordinate) and Laplacian *)
Record lap := { lx : arr; jac : nat -> arr; lapl : arr }.
Inductive value := Plain (a : arr) | Tracked (t : lap).
(** [a.x if isinstance(a, LapTuple) else a] *)
Definition primal (v : value) : arr := match v with Plain a => a | Tracked t => lx t end.
Definition is_tracked (v : value) : bool := match v with Plain _ => false | Tracked _ => true end.
(** A plain operand is absent from the sums over tracked operands (core.py 105-185). *)
Definition jac_of (v : value) (k i : nat) : R := match v with Plain _ => 0 | Tracked t => jac t k i end.
Definition lapl_of (v : value) (i : nat) : R := match v with Plain _ => 0 | Tracked t => lapl t i end.

(** JAX's derivative of max: 1 for the winner, 1/2 each on a tie *)
Definition weight (winner a b : R) : R :=
  if Req_EM_T a winner then (if Req_EM_T b winner then / 2 else 1) else 0.

(** Rules with at least one tracked operand. [n] = number of tracked coordinates. *)
Definition rule (n : nat) (e : nat -> value) (i : instr) : value :=
  let p := fun v => primal (e v) in
  let y := prim p i in
  match i with
  | Unary f x => (* core.py 368-405 wrap_elementwise; jvp.py 19-55; hessian.py 134-158 *)
      Tracked {| lx := y; jac := fun k o => sf1 f (p x o) * jac_of (e x) k o;
                 lapl := fun o => sf1 f (p x o) * lapl_of (e x) o + sf2 f (p x o) * sum n (fun k => jac_of (e x) k o * jac_of (e x) k o) |}
  | Add bx by_ x z => (* arithmetic.py 180-190: wrap_linear *)
      Tracked {| lx := y; jac := fun k o => jac_of (e x) k (bx o) + jac_of (e z) k (by_ o);
                 lapl := fun o => lapl_of (e x) (bx o) + lapl_of (e z) (by_ o) |}
  | Sub bx by_ x z =>
      Tracked {| lx := y; jac := fun k o => jac_of (e x) k (bx o) - jac_of (e z) k (by_ o);
                 lapl := fun o => lapl_of (e x) (bx o) - lapl_of (e z) (by_ o) |}
  | Linear _ w => (* core.py 335-365 wrap_linear; jvp.py 58-66 dense_split_jvp *)
      Tracked {| lx := y; jac := fun k o => lsum (fun t => let '(v, i, r) := t in r * jac_of (e v) k i) (w o);
                 lapl := fun o => lsum (fun t => let '(v, i, r) := t in r * lapl_of (e v) i) (w o) |}
  | Mul bx by_ x z => (* core.py 442-493 wrap_multiplication *)
      match e x, e z with
      | Tracked a, Tracked b =>
          Tracked {| lx := y; jac := fun k o => jac a k (bx o) * lx b (by_ o) + jac b k (by_ o) * lx a (bx o);
                     lapl := fun o => lapl a (bx o) * lx b (by_ o) + lapl b (by_ o) * lx a (bx o) + 2 * sum n (fun k => jac a k (bx o) * jac b k (by_ o)) |}
      | Tracked a, Plain c =>
          Tracked {| lx := y; jac := fun k o => jac a k (bx o) * (1 * c (by_ o)); lapl := fun o => lapl a (bx o) * (1 * c (by_ o)) |}
      | Plain c, Tracked b =>
          Tracked {| lx := y; jac := fun k o => jac b k (by_ o) * (c (bx o) * 1); lapl := fun o => lapl b (by_ o) * (c (bx o) * 1) |}
      | Plain _, Plain _ => Plain y
      end
  | Div bx by_ x z => (* arithmetic.py 512-549 *)
      match e x, e z with
      | Tracked a, Tracked b =>
          Tracked {| lx := y;
             jac := fun k o => / lx b (by_ o) * jac a k (bx o) + - lx a (bx o) / (lx b (by_ o) * lx b (by_ o)) * jac b k (by_ o);
             lapl := fun o => / lx b (by_ o) * lapl a (bx o) + - lx a (bx o) / (lx b (by_ o) * lx b (by_ o)) * lapl b (by_ o)
                     + (2 * lx a (bx o) / lx b (by_ o) ^ 3 * sum n (fun k => jac b k (by_ o) * jac b k (by_ o))
                        - 2 / lx b (by_ o) ^ 2 * sum n (fun k => jac a k (bx o) * jac b k (by_ o))) |}
      | Tracked a, Plain c =>
          Tracked {| lx := y; jac := fun k o => / c (by_ o) * jac a k (bx o); lapl := fun o => / c (by_ o) * lapl a (bx o) |}
      | Plain c, Tracked b =>
          Tracked {| lx := y;
             jac := fun k o => - c (bx o) / (lx b (by_ o) * lx b (by_ o)) * jac b k (by_ o);
             lapl := fun o => - c (bx o) / (lx b (by_ o) * lx b (by_ o)) * lapl b (by_ o)
                     + 2 * c (bx o) / lx b (by_ o) ^ 3 * sum n (fun k => jac b k (by_ o) * jac b k (by_ o)) |}
      | Plain _, Plain _ => Plain y
      end
  | Dot c x z => (* dot_general.py 356-430 *)
      match e x, e z with
      | Tracked a, Tracked b =>
          Tracked {| lx := y;
             jac := fun k o => lsum (fun t => jac a k (fst t) * lx b (snd t)) (c o) + lsum (fun t => lx a (fst t) * jac b k (snd t)) (c o);
             lapl := fun o => lsum (fun t => lapl a (fst t) * lx b (snd t)) (c o) + lsum (fun t => lx a (fst t) * lapl b (snd t)) (c o)
                     + 2 * lsum (fun t => sum n (fun k => jac a k (fst t) * jac b k (snd t))) (c o) |}
      | Tracked a, Plain d =>
          Tracked {| lx := y; jac := fun k o => lsum (fun t => jac a k (fst t) * d (snd t)) (c o); lapl := fun o => lsum (fun t => lapl a (fst t) * d (snd t)) (c o) |}
      | Plain d, Tracked b =>
          Tracked {| lx := y; jac := fun k o => lsum (fun t => d (fst t) * jac b k (snd t)) (c o); lapl := fun o => lsum (fun t => d (fst t) * lapl b (snd t)) (c o) |}
      | Plain _, Plain _ => Plain y
      end
  | General f args _ => (* core.py 408-439 wrap_general; hessian.py 53-131 *)
      let m := marity f in
      let tdim := length (filter (fun a => is_tracked (e (fst (args a)))) (seq 0 m)) in (* only tracked arguments are flattened *)
      let v := fun a => p (fst (args a)) (snd (args a)) in
      let g := fun a k => jac_of (e (fst (args a))) k (snd (args a)) in (* grad_2d, shape (m, n) *)
      let jhj := fun o =>
        if (tdim <? n)%nat (* inp_dim > jac_dim *)
        then sum m (fun a => sum m (fun b => mh f o v a b * sum n (fun k => g a k * g b k))) (* JHJ_via_hessian *)
        else sum n (fun k => sum m (fun a => sum m (fun b => mh f o v a b * g b k) * g a k)) (* JHJ_via_trace *) in
      Tracked {| lx := y; jac := fun k o => sum m (fun a => mg f o v a * g a k);
                 lapl := fun o => sum m (fun a => mg f o v a * lapl_of (e (fst (args a))) (snd (args a))) + jhj o |}
  | Max bx by_ x z => (* selection.py 40-50: wrap_linear of max_p *)
      let wx := fun o => weight (y o) (p x (bx o)) (p z (by_ o)) in
      let wz := fun o => weight (y o) (p z (by_ o)) (p x (bx o)) in
      Tracked {| lx := y; jac := fun k o => wx o * jac_of (e x) k (bx o) + wz o * jac_of (e z) k (by_ o);
                 lapl := fun o => wx o * lapl_of (e x) (bx o) + wz o * lapl_of (e z) (by_ o) |}
  | Min bx by_ x z =>
      let wx := fun o => weight (y o) (p x (bx o)) (p z (by_ o)) in
      let wz := fun o => weight (y o) (p z (by_ o)) (p x (bx o)) in
      Tracked {| lx := y; jac := fun k o => wx o * jac_of (e x) k (bx o) + wz o * jac_of (e z) k (by_ o);
                 lapl := fun o => wx o * lapl_of (e x) (bx o) + wz o * lapl_of (e z) (by_ o) |}
  | Abs x => (* elementwise.py 132: wrap_linear of abs *)
      Tracked {| lx := y; jac := fun k o => sgn (p x o) * jac_of (e x) k o; lapl := fun o => sgn (p x o) * lapl_of (e x) o |}
  | Select c x z => (* selection.py 131-148: the selector loses its derivatives *)
      if is_tracked (e x) || is_tracked (e z) then
      Tracked {| lx := y; jac := fun k o => if Req_EM_T (p c o) 0 then jac_of (e x) k o else jac_of (e z) k o;
                 lapl := fun o => if Req_EM_T (p c o) 0 then lapl_of (e x) o else lapl_of (e z) o |}
      else Plain y
  | Compare _ _ _ _ _ | Sign _ => Plain y (* logical.py, elementwise.py 174: wrap_without_fwd_laplacian *)
  end.
(** interpreter.py 140-168: no tracked operand -> the primitive itself *)
Definition eval_eqn (n : nat) (e : nat -> value) (i : instr) : value :=
  if existsb (fun v => is_tracked (e v)) (operands i) then rule n e i else Plain (prim (fun v => primal (e v)) i).

(** The equation loop, interpreter.py 112-137. *)
Fixpoint run_lap (n : nat) (prog : list instr) (env : list value) : list value :=
  match prog with
  | [] => env
  | i :: prog' => run_lap n prog' (env ++ [eval_eqn n (nthv (Plain zero_arr) env) i])
  end.
(** seed.py 94-112: leaf [off] of the flattened input, identity Jacobian times the weights *)
Definition seed (w p : vec) (off : nat) : value :=
  Tracked {| lx := leaf off p; jac := fun k i => delta k (off + i) * w (off + i)%nat; lapl := fun _ => 0 |}.
Definition seeds (offs : list nat) (consts : list arr) (w p : vec) : list value := map (seed w p) offs ++ map Plain consts.
