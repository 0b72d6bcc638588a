(** The Euclidean kinetic energy estimator (/repo/src/jaqmc/estimator/kinetic/euclidean.py, _common.py), the
    function transforms it uses (utils/func_transform.py) and the hydrogen atom of app/hydrogen_atom.py, over the
    reals. Arrays are row-major buffers with a shape, so that flatten and reshape only change the shape. Parameters
    are fixed. JAX's transforms are modelled by what they compute: jax.grad the partial derivatives, jax.linearize
    the value and the derivative along a direction. Whether a function is real or complex is known from its type,
    as jax.eval_shape knows it. *)
From Coq Require Import Reals List Arith Lra String.
From Coquelicot Require Import Coquelicot.
From Verif Require Import Lin Lap_Lang Lap_Model.
Import ListNotations.
Open Scope R_scope.
Local Notation vec := Lin.vec.

(** ** Data and functions *)
Record field := { shape : list nat; buf : vec }.
Definition data := string -> field.
(** data.merge({key: x}) *)
Definition merge (d : data) (key : string) (x : field) : data := fun s => if String.eqb s key then x else d s.
Definition size_of (x : field) : nat := fold_right Nat.mul 1%nat (shape x).
Definition flatten (x : field) : vec := buf x. (* _common.py 38-60 *)
Definition reshape (x : vec) (s : list nat) : field := {| shape := s; buf := x |}.
(** a function on A whose output has entries indexed by I *)
Inductive fn (A I : Type) := RealF (f : A -> I -> R) | ComplexF (f : A -> I -> C).
Arguments RealF {A I}. Arguments ComplexF {A I}.
(** func_transform.py 12-60: with_real, with_imag *)
Definition with_real {A I} (f : A -> I -> C) : A -> I -> R := fun a i => fst (f a i).
Definition with_imag {A I} (f : A -> I -> C) : A -> I -> R := fun a i => snd (f a i).
Definition join (r i : R) : C := Cplus (RtoC r) (Cmult Ci (RtoC i)). (* r + 1j * i *)
Definition precompose {A B I} (g : B -> A) (f : fn A I) : fn B I :=
  match f with RealF h => RealF (fun b => h (g b)) | ComplexF h => ComplexF (fun b => h (g b)) end.
(** func_transform.py 88-126 *)
Definition transform_maybe_complex {A I J} (jaxfun : (A -> I -> R) -> A -> J -> R) (f : fn A I) : fn A J :=
  match f with
  | RealF g => RealF (jaxfun g)
  | ComplexF g => ComplexF (fun a j => join (jaxfun (with_real g) a j) (jaxfun (with_imag g) a j))
  end.
(** jax.grad with respect to an array: the partial derivative in each of its entries *)
Definition set_entry (x : field) (k : nat) (t : R) : field := {| shape := shape x; buf := fun j => if Nat.eqb j k then t else buf x j |}.
Definition grad (g : field -> unit -> R) (x : field) (k : nat) : R := Derive (fun t => g (set_entry x k t) tt) (buf x k).
Definition grad_maybe_complex : fn field unit -> fn field nat := transform_maybe_complex grad.
(** func_transform.py 213-247: f (params, data) differentiated in data[key] *)
Definition real_part_of {A I} (f : fn A I) : A -> I -> R := match f with RealF g => g | ComplexF g => with_real g end.
Definition complex_of {A I} (f : fn A I) : A -> I -> C := match f with RealF g => fun a i => RtoC (g a i) | ComplexF g => g end.
Definition transform_with_data (f : fn data unit) (key : string) (jaxfun : fn field unit -> fn field nat) : fn data nat :=
  let transformed := fun d => jaxfun (precompose (fun x => merge d key x) f) in
  match f with
  | RealF _ => RealF (fun d => real_part_of (transformed d) (d key))
  | ComplexF _ => ComplexF (fun d => complex_of (transformed d) (d key))
  end.
(** func_transform.py 129-155 *)
Definition linearize (g : vec -> nat -> R) (x : vec) : (nat -> R) * (vec -> nat -> R) :=
  (g x, fun v k => Derive (fun s => g (fun j => x j + s * v j) k) 0).
Inductive linearized := RealL (primal : nat -> R) (jvp : vec -> nat -> R) | ComplexL (primal : nat -> C) (jvp : vec -> nat -> C).
Definition linearize_maybe_complex (f : fn vec nat) (x : vec) : linearized :=
  match f with
  | RealF g => let '(p, j) := linearize g x in RealL p j
  | ComplexF g => let '(pr, jr) := linearize (with_real g) x in let '(pi, ji) := linearize (with_imag g) x in
      ComplexL (fun k => join (pr k) (pi k)) (fun v k => join (jr v k) (ji v k))
  end.

(** ** The estimator *)
Inductive scalar := RealS (r : R) | ComplexS (z : C).
(** _common.py 63-75 *)
Definition kinetic_formula (laplacian grad_squared : R) : R := - (1 / 2) * laplacian - 1 / 2 * grad_squared.
Definition ckinetic_formula (laplacian grad_squared : C) : C :=
  Cminus (Cmult (RtoC (- (1 / 2))) laplacian) (Cmult (RtoC (1 / 2)) grad_squared).
Inductive loop_mode := Scan | ForiLoop.
Definition eye (i : nat) : vec := fun j => delta i j.
(** euclidean.py 98-107: scan stacks the diagonal and sums it, fori_loop accumulates from 0.0 *)
Definition diagonal_sum {T} (zero : T) (plus : T -> T -> T) (mode : loop_mode) (n : nat) (dgrad : vec -> nat -> T) : T :=
  match mode with
  | Scan =>
      let '(_, diagonal) := fold_left (fun st _ => let '(i, out) := st in (S i, out ++ [dgrad (eye i) i])%list) (seq 0 n) (0%nat, []) in
      fold_right plus zero diagonal
  | ForiLoop => fold_left (fun val i => plus val (dgrad (eye i) i)) (seq 0 n) zero
  end.
(** euclidean.py 80-111 *)
Definition evaluate_standard (f : fn data unit) (key : string) (mode : loop_mode) (d : data) : scalar :=
  let grad_f := transform_with_data f key grad_maybe_complex in
  let n := size_of (d key) in
  let closure := precompose (fun x => merge d key (reshape x (shape (d key)))) grad_f in
  match linearize_maybe_complex closure (flatten (d key)) with
  | RealL primal dgrad =>
      RealS (kinetic_formula (diagonal_sum 0 Rplus mode n dgrad) (sum n (fun k => primal k ^ 2)))
  | ComplexL primal dgrad =>
      ComplexS (ckinetic_formula (diagonal_sum (RtoC 0) Cplus mode n dgrad) (fold_left (fun s k => Cplus s (Cmult (primal k) (primal k))) (seq 0 n) (RtoC 0)))
  end.
(** euclidean.py 113-135, real programs: [out] is the entry of the interpreter's result at the output variable; an
    output that does not depend on the positions carries no derivatives *)
Definition evaluate_forward (n : nat) (out : value) : option R :=
  match out with
  | Tracked t => Some (kinetic_formula (lapl t 0%nat) (sum n (fun k => jac t k 0%nat ^ 2)))
  | Plain _ => None
  end.

(** ** The hydrogen atom (app/hydrogen_atom.py 28-43): one walker, electrons of shape (3,) *)
Definition hydrogen_log_psi (alpha : R) : fn data unit := RealF (fun d _ => norm 3 (buf (d "electrons"%string)) * alpha).
Definition potential_energy (d : data) : R := -1 / norm 3 (buf (d "electrons"%string)).
Definition hydrogen_local_energy (alpha : R) (mode : loop_mode) (d : data) : scalar :=
  match evaluate_standard (hydrogen_log_psi alpha) "electrons" mode d with
  | RealS k => RealS (k + potential_energy d)
  | ComplexS z => ComplexS (Cplus z (RtoC (potential_energy d)))
  end.
(** 46-61: the initial walker from the three draws *)
Definition hydrogen_init (r theta phi : R) : vec := fun i => nth i [r * sin theta * cos phi; r * sin theta * sin phi; r * cos theta] 0.
