(** The programs of C38: straight-line programs over the primitives of
    /repo/src/jaqmc/laplacian/primitives, their ordinary (primal) meaning, and the points at
    which they are twice differentiable. The forward-Laplacian rules are in Lap_Model.v.

    An array is a function on flat element indices, so reshapes, transposes, slices,
    broadcasts, gathers and concatenations are index maps; a program is a list of equations
    that refer to earlier values by position. *)
From Coq Require Import Reals List Arith Bool.
From Verif Require Import Lin Lap_Spec.
Import ListNotations.
Open Scope R_scope.

Definition arr := nat -> R.
(** A scalar function with the derivatives JAX computes for it, and where they hold. *)
Record smooth1 := { sf : R -> R; sf1 : R -> R; sf2 : R -> R; sdom : R -> Prop;
  sopen : open1 sdom;
  sd1 : forall x, sdom x -> derivable_pt_lim sf x (sf1 x);
  sd2 : forall x, sdom x -> derivable_pt_lim sf1 x (sf2 x) }.
(** A function of [marity] scalars with several outputs, its gradient and its Hessian
    ([mloc]: only the first [marity] arguments matter). *)
Record smoothn := { marity : nat; mf : nat -> vec -> R; mg : nat -> vec -> vec; mh : nat -> vec -> mat; mdom : vec -> Prop;
  mloc : forall o v w, (forall a, (a < marity)%nat -> v a = w a) -> mf o v = mf o w;
  mopen : openn marity mdom;
  md1 : forall o v, mdom v -> total marity (mf o) v (mg o v);
  md2 : forall o v a, mdom v -> (a < marity)%nat -> total marity (fun w => mg o w a) v (mh o v a) }.

Inductive cmp := Clt | Cle | Cgt | Cge | Ceq | Cne.
Definition compare (c : cmp) (a b : R) : R :=
  match c with
  | Clt => if Rlt_dec a b then 1 else 0
  | Cle => if Rle_dec a b then 1 else 0
  | Cgt => if Rlt_dec b a then 1 else 0
  | Cge => if Rle_dec b a then 1 else 0
  | Ceq => if Req_EM_T a b then 1 else 0
  | Cne => if Req_EM_T a b then 0 else 1
  end.
Definition sgn (a : R) : R := if Rlt_dec 0 a then 1 else if Rlt_dec a 0 then -1 else 0.

(** Equations. Operands are positions in the list of earlier values; [bx], [by] are the
    index maps of broadcasting. *)
Inductive instr :=
| Unary (f : smooth1) (x : nat)
| Add (bx by_ : nat -> nat) (x y : nat)
| Sub (bx by_ : nat -> nat) (x y : nat)
| Linear (xs : list nat) (w : nat -> list (nat * nat * R)) (* output o = sum of weight * element of an operand *)
| Mul (bx by_ : nat -> nat) (x y : nat)
| Div (bx by_ : nat -> nat) (x y : nat)
| Dot (c : nat -> list (nat * nat)) (x y : nat) (* output o = sum of products of elements *)
| General (f : smoothn) (args : nat -> nat * nat) (xs : list nat) (* flat argument a = element of an operand *)
| Max (bx by_ : nat -> nat) (x y : nat)
| Min (bx by_ : nat -> nat) (x y : nat)
| Abs (x : nat)
| Select (c x y : nat) (* which, cases *)
| Compare (c : cmp) (bx by_ : nat -> nat) (x y : nat)
| Sign (x : nat).

Definition lsum {A} (f : A -> R) (l : list A) : R := fold_right (fun x s => f x + s) 0 l.
(** Primal meaning of an equation. *)
Definition prim (e : nat -> arr) (i : instr) : arr :=
  match i with
  | Unary f x => fun o => sf f (e x o)
  | Add bx by_ x y => fun o => e x (bx o) + e y (by_ o)
  | Sub bx by_ x y => fun o => e x (bx o) - e y (by_ o)
  | Linear _ w => fun o => lsum (fun t => let '(v, i, r) := t in r * e v i) (w o)
  | Mul bx by_ x y => fun o => e x (bx o) * e y (by_ o)
  | Div bx by_ x y => fun o => e x (bx o) / e y (by_ o)
  | Dot c x y => fun o => lsum (fun t => e x (fst t) * e y (snd t)) (c o)
  | General f args _ => fun o => mf f o (fun a => e (fst (args a)) (snd (args a)))
  | Max bx by_ x y => fun o => Rmax (e x (bx o)) (e y (by_ o))
  | Min bx by_ x y => fun o => Rmin (e x (bx o)) (e y (by_ o))
  | Abs x => fun o => Rabs (e x o)
  | Select c x y => fun o => if Req_EM_T (e c o) 0 then e x o else e y o
  | Compare c bx by_ x y => fun o => compare c (e x (bx o)) (e y (by_ o))
  | Sign x => fun o => sgn (e x o)
  end.

Definition operands (i : instr) : list nat :=
  match i with
  | Unary _ x | Abs x | Sign x => [x]
  | Add _ _ x y | Sub _ _ x y | Mul _ _ x y | Div _ _ x y | Dot _ x y | Max _ _ x y | Min _ _ x y | Compare _ _ _ x y => [x; y]
  | Linear xs _ | General _ _ xs => xs
  | Select c x y => [c; x; y]
  end.
Definition nthv {A} (d : A) (l : list A) (v : nat) : A := nth v l d.
Definition zero_arr : arr := fun _ => 0.
(** Plain evaluation. *)
Fixpoint run_prim (prog : list instr) (env : list arr) : list arr :=
  match prog with
  | [] => env
  | i :: prog' => run_prim prog' (env ++ [prim (nthv zero_arr env) i])
  end.


(** ** Well-formedness and smoothness *)
(** The elements (operand, index) that output element [o] is computed from. *)
Definition reads (i : instr) (o : nat) : list (nat * nat) :=
  match i with
  | Unary _ x | Abs x | Sign x => [(x, o)]
  | Add bx by_ x y | Sub bx by_ x y | Mul bx by_ x y | Div bx by_ x y | Max bx by_ x y | Min bx by_ x y | Compare _ bx by_ x y => [(x, bx o); (y, by_ o)]
  | Linear _ w => map fst (w o)
  | Dot c x y => flat_map (fun t => [(x, fst t); (y, snd t)]) (c o)
  | General f args _ => map args (seq 0 (marity f))
  | Select c x y => [(c, o); (x, o); (y, o)]
  end.
(** Every element read is an element of a listed operand ([sizes]: sizes of the earlier
    values, [size]: size of the result). *)
Definition well_formed (sizes : list nat) (i : instr) (size : nat) : Prop :=
  forall o, (o < size)%nat -> forall v j, In (v, j) (reads i o) -> In v (operands i) /\ (j < nth v sizes 0%nat)%nat.
(** Does the result depend on the coordinates, given which operands do? Comparisons, signs
    and selectors are locally constant. *)
Definition depends (dep : nat -> bool) (i : instr) : bool :=
  match i with
  | Compare _ _ _ _ _ | Sign _ => false
  | Select _ x y => dep x || dep y
  | _ => existsb dep (operands i)
  end.
(** Conditions under which the equation is twice differentiable at the operand values [e];
    nothing is required when no operand depends on the coordinates. *)
Definition smooth (dep : nat -> bool) (e : nat -> arr) (i : instr) (size : nat) : Prop :=
  existsb dep (operands i) = true -> forall o, (o < size)%nat ->
  match i with
  | Unary f x => sdom f (e x o)
  | Div bx by_ x y => e y (by_ o) <> 0
  | General f args _ => mdom f (fun a => e (fst (args a)) (snd (args a)))
  | Max bx by_ x y | Min bx by_ x y | Compare _ bx by_ x y => e x (bx o) <> e y (by_ o)
  | Abs x | Sign x => e x o <> 0
  | Select c x y => dep c = false
  | _ => True
  end.
(** A whole program, with the size of each result. *)
Fixpoint well_formed_program (sizes : list nat) (prog : list (instr * nat)) : Prop :=
  match prog with
  | [] => True
  | (i, size) :: prog' => well_formed sizes i size /\ well_formed_program (sizes ++ [size]) prog'
  end.
Fixpoint smooth_program (dep : list bool) (env : list arr) (prog : list (instr * nat)) : Prop :=
  match prog with
  | [] => True
  | (i, size) :: prog' =>
      smooth (nthv false dep) (nthv zero_arr env) i size /\
      smooth_program (dep ++ [depends (nthv false dep) i]) (env ++ [prim (nthv zero_arr env) i]) prog'
  end.
(** The inputs of the program: consecutive blocks [off, off + length) of the coordinate
    vector [p], then constants. *)
Definition leaf (off : nat) (p : vec) : arr := fun i => p (off + i)%nat.
Definition inputs (offs : list nat) (consts : list arr) (p : vec) : list arr := map (fun off => leaf off p) offs ++ consts.
