(** Model for C95: laplacian/ad.py (vjp, _vjp_rc, jacrev, jacfwd, hessian), laplacian/hessian.py
    (general_jac_hessian_jac and its three strategies), laplacian/jvp.py (dense_split_jvp, the
    elementwise strategy) and wrap_general / wrap_elementwise of laplacian/primitives/core.py 366-446.

    Arrays are flattened: an array (or the concatenation of several) is a map from positions to
    complex numbers, and a real dtype means that the imaginary part is 0. Arithmetic is over the reals. *)
From Coq Require Import Reals List Arith Bool.
From Coquelicot Require Import Complex Derive.
From Verif Require Import Fl_Spec.
Import ListNotations.
Open Scope C_scope.

Inductive dtype := RE | CX.
Definition is_cx (d : dtype) : bool := match d with CX => true | RE => false end.
Definition cvec := nat -> C.

(** [x + h t]: the line through [x] with direction [t]. *)
Definition move (x t : cvec) (h : R) : cvec := fun i => x i + RtoC h * t i.

(** jax.jvp(f, (x,), (t,))[1] for one output entry. JAX's forward mode is taken to be exact: the
    derivative of the output entry along the line, its real and imaginary parts separately. *)
Definition jvp (f : cvec -> C) (x t : cvec) : C :=
  (Derive (fun h => fst (f (move x t h))) 0, Derive (fun h => snd (f (move x t h))) 0).

(** Rows of jnp.eye, and the same times the imaginary unit. *)
Definition eye (i : nat) : cvec := fun j => if Nat.eqb j i then RtoC 1 else RtoC 0.
Definition ieye (i : nat) : cvec := fun j => if Nat.eqb j i then Ci else RtoC 0.

(** jax.vjp(f, x)[1](ct), JAX's own convention (its documentation, "Complex numbers and
    differentiation"): with f = u + i v and ct = c + i d, entry i of the result is
    (c u_x - d v_x) - i (c u_y - d v_y); a real input keeps only the first bracket. Reverse mode is
    modelled by transposing the forward-mode derivative; [m] output entries. *)
Definition jax_vjp (din : dtype) (m : nat) (f : cvec -> nat -> C) (x : cvec) (ct : nat -> C) (i : nat) : C :=
  let along t := fst (csum m (fun o => ct o * jvp (fun y => f y o) x t)) in
  match din with
  | RE => RtoC (along (eye i))
  | CX => (along (eye i), (- along (ieye i))%R)
  end.

(** ad.py 41-77 _vjp_rc *)
Definition vjp_rc (m : nat) (f : cvec -> nat -> C) (x : cvec) (ct : nat -> C) (i : nat) : C :=
  let real_fun y o := RtoC (fst (f y o)) in
  let imag_fun y o := RtoC (snd (f y o)) in
  let vjp_r := jax_vjp RE m real_fun x in
  let vjp_i := jax_vjp RE m imag_fun x in
  let real_tangents o := RtoC (fst (ct o)) in
  let imag_tangents o := RtoC (snd (ct o)) in
  let a := vjp_r real_tangents i in (* vr_jr *)
  let b := vjp_r imag_tangents i in (* vi_jr *)
  let c := vjp_i real_tangents i in (* vr_ji *)
  let d := vjp_i imag_tangents i in (* vi_ji *)
  a - d + Ci * (c + b).

(** ad.py 80-91 vjp *)
Definition vjp (din dout : dtype) (m : nat) (f : cvec -> nat -> C) (x : cvec) (ct : nat -> C) (i : nat) : C :=
  if is_cx din || negb (is_cx dout) then jax_vjp din m f x ct i else vjp_rc m f x ct i.

(** jax.flatten_util.ravel_pytree of [n] entries whose leaves have dtypes [kind]: the common dtype, and
    the inverse map. With one dtype the inverse is a reshape and accepts any dtype; otherwise it converts
    every entry back, so that a real leaf gets the real part. *)
Definition flat_dtype (n : nat) (kind : nat -> dtype) : dtype := if existsb (fun i => is_cx (kind i)) (seq 0 n) then CX else RE.
Definition mixed (n : nat) (kind : nat -> dtype) : bool :=
  existsb (fun i => is_cx (kind i)) (seq 0 n) && existsb (fun i => negb (is_cx (kind i))) (seq 0 n).
Definition unravel (n : nat) (kind : nat -> dtype) (y : cvec) : cvec := fun i =>
  if mixed n kind then match kind i with RE => RtoC (fst (y i)) | CX => y i end else y i.

(** ad.py 99-125 jacrev (m = out.size rows of eye): entry (o, i). The pcast / pvary lines only mark
    sharding and change no value. *)
Definition jacrev (n : nat) (kind : nat -> dtype) (m : nat) (dout : dtype) (f : cvec -> nat -> C) (x : cvec) (o i : nat) : C :=
  let flat_f y := f (unravel n kind y) in
  unravel n kind (fun i => vjp (flat_dtype n kind) dout m flat_f x (eye o) i) i.

(** ad.py 128-149 jacfwd, for one output entry: position j of the last axis is the tangent row j of eye. *)
Definition jacfwd (f : cvec -> C) (x : cvec) (j : nat) : C := jvp f x (eye j).

(** ad.py 152-154 hessian: jacfwd(jacrev(f)), entry (o, i, j). *)
Definition hessian (n : nat) (kind : nat -> dtype) (m : nat) (dout : dtype) (f : cvec -> nat -> C) (x : cvec) (o i j : nat) : C :=
  jacfwd (fun y => jacrev n kind m dout f y o i) x j.

(** hessian.py 43-45 _frobenius_inner of two (r, c) matrices *)
Definition frobenius (r c : nat) (a b : nat -> nat -> C) : C := csum r (fun i => csum c (fun j => a i j * b i j)).

(** hessian.py 57-62 JHJ_via_hessian; [g i k] is grad_2d, D = [n] rows and [K] columns. *)
Definition JHJ_via_hessian (n K m : nat) (dt dout : dtype) (f : cvec -> nat -> C) (x : cvec) (g : nat -> nat -> C) (o : nat) : C :=
  frobenius n n (fun i j => hessian n (fun _ => dt) m dout f x o i j) (fun i j => csum K (fun k => g i k * g j k)).
(** hessian.py 65-83 JHJ_via_trace: the trace of the (K, K) matrix of nested forward derivatives. *)
Definition JHJ_via_trace (K : nat) (f : cvec -> nat -> C) (x : cvec) (g : nat -> nat -> C) (o : nat) : C :=
  let vhvp k' k := jvp (fun y => jvp (fun z => f z o) y (fun i => g i k')) x (fun i => g i k) in
  csum K (fun k => vhvp k k).
(** hessian.py 86-100 JHJ_via_hvp *)
Definition JHJ_via_hvp (n K m : nat) (dt dout : dtype) (f : cvec -> nat -> C) (x : cvec) (g : nat -> nat -> C) (o : nat) : C :=
  frobenius n K (fun i k => jvp (fun y => jacrev n (fun _ => dt) m dout f y o i) x (fun j => g j k)) g.

(** hessian.py 32-40 _flat_wrap *)
Definition flat_wrap (n : nat) (kind : nat -> dtype) (f : cvec -> nat -> C) : cvec -> nat -> C := fun y => f (unravel n kind y).
(** hessian.py 108-134 general_jac_hessian_jac. [jac k i] is the Jacobian of tracked entry i, so that
    grad_2d has jac_dim = n rows and inp_dim = K columns. *)
Definition general_jhj (n K : nat) (kind : nat -> dtype) (m : nat) (dout : dtype) (f : cvec -> nat -> C) (x : cvec) (jac : nat -> cvec) (o : nat) : C :=
  let flat_fn := flat_wrap n kind f in
  let dt := flat_dtype n kind in
  let grad_2d i k := jac k i in
  if (n <? K)%nat
  then if is_cx dt && negb (is_cx dout)
       then RtoC (fst (JHJ_via_hvp n K m dt dout flat_fn x grad_2d o))
       else JHJ_via_hessian n K m dt dout flat_fn x grad_2d o
  else JHJ_via_trace K flat_fn x grad_2d o.

(** jvp.py 61-69 dense_split_jvp and core.py 416-446 wrap_general: value, Jacobian, Laplacian. *)
Definition general_value (f : cvec -> nat -> C) (x : cvec) (o : nat) : C := f x o.
Definition general_grad (f : cvec -> nat -> C) (x : cvec) (jac : nat -> cvec) (k o : nat) : C := jvp (fun y => f y o) x (jac k).
Definition general_lap (n K : nat) (kind : nat -> dtype) (m : nat) (dout : dtype) (f : cvec -> nat -> C) (x : cvec) (jac : nat -> cvec) (lap : cvec) (o : nat) : C :=
  jvp (fun y => f y o) x lap + general_jhj n K kind m dout f x jac o.

(** jvp.py 24-58 dense_elementwise_jvp, hessian.py 137-159 elementwise_jac_hessian_jac and core.py
    366-413 wrap_elementwise, for a function [g] applied to each of the [n] entries. *)
Definition pointwise (g : C -> C) : cvec -> nat -> C := fun y o => g (y o).
Definition ones : cvec := fun _ => RtoC 1.
Definition elementwise_jac (din dout : dtype) (n : nat) (g : C -> C) (x : cvec) (i : nat) : C := vjp din dout n (pointwise g) x ones i.
Definition elementwise_grad (din dout : dtype) (n : nat) (g : C -> C) (x : cvec) (jac : nat -> cvec) (k o : nat) : C := elementwise_jac din dout n g x o * jac k o.
Definition elementwise_second (g : C -> C) (x : cvec) (o : nat) : C := jvp (fun y => jvp (fun z => pointwise g z o) y ones) x ones.
Definition elementwise_lap (din dout : dtype) (n K : nat) (g : C -> C) (x : cvec) (jac : nat -> cvec) (lap : cvec) (o : nat) : C :=
  elementwise_jac din dout n g x o * lap o + elementwise_second g x o * csum K (fun k => jac k o * jac k o).
