(** Model of /repo/src/jaqmc/laplacian/primitives/slogdet.py and complex.py.

    Simplifications: exact arithmetic; one matrix (the einsum's "..." axes are a batch of
    independent matrices); [jnp.linalg.slogdet] and [jnp.linalg.inv] are JAX's and trusted: the
    first returns det/|det| and ln|det|, the second is passed in as [inv]. A real array is a
    complex array whose imaginary parts are zero ([iscomplex] is jnp.iscomplexobj). *)
From Coq Require Import Reals List Arith Bool.
From Coquelicot Require Import Complex.
From Verif Require Import Lin Lap_Spec Fl_Spec.
Open Scope C_scope.

(** types.py 27-66: a LapTuple over elements addressed by [A] (matrix entries, or one scalar) *)
Record claptuple (A : Type) := { c_x : A -> C; c_jac : nat -> A -> C; c_lapl : A -> C }.
Arguments c_x {A}. Arguments c_jac {A}. Arguments c_lapl {A}.
Inductive cvalue (A : Type) := CPlain (a : A -> C) | CTracked (t : claptuple A).
Arguments CPlain {A}. Arguments CTracked {A}.

(** slogdet.py 45-51 jnp.linalg.slogdet *)
Definition slogdet (m : nat) (a : nat * nat -> C) : C * C :=
  let d := determinant m (fun r c => a (r, c)) in (d / RtoC (Cmod d), RtoC (ln (Cmod d))).
(** slogdet.py 56-58 *)
Definition ainv_j (m : nat) (inv : nat * nat -> C) (j : nat -> nat * nat -> C) (k a c : nat) : C :=
  csum m (fun b => inv (a, b) * j k (b, c)).
Definition full_jac m inv j (k : nat) : C := csum m (fun a => ainv_j m inv j k a a).
(** slogdet.py 59 *)
Definition full_lapl_jvp (m : nat) (inv l : nat * nat -> C) : C := csum m (fun a => csum m (fun b => inv (a, b) * l (b, a))).
(** slogdet.py 60 *)
Definition hess_trace (n m : nat) inv j : C := - csum n (fun k => csum m (fun a => csum m (fun c => ainv_j m inv j k a c * ainv_j m inv j k c a))).
(** slogdet.py 24-78 handle_slogdet, tracked branch; the sign is plain for real matrices *)
Definition handle_slogdet (n m : nat) (iscomplex : bool) (inv : nat * nat -> C) (x : claptuple (nat * nat)) : cvalue unit * cvalue unit :=
  let sign_val := fst (slogdet m (c_x x)) in
  let logdet_val := snd (slogdet m (c_x x)) in
  let fj := full_jac m inv (c_jac x) in
  let fl := full_lapl_jvp m inv (c_lapl x) in
  let ht := hess_trace n m inv (c_jac x) in
  let logdet := CTracked {| c_x := fun _ => logdet_val; c_jac := fun k _ => RtoC (fst (fj k)); c_lapl := fun _ => RtoC (fst fl + fst ht) |} in
  if negb iscomplex then (CPlain (fun _ => sign_val), logdet)
  else
    let theta_grad := fun k => snd (fj k) in
    let theta_lapl := (snd fl + snd ht)%R in
    (CTracked {| c_x := fun _ => sign_val;
                 c_jac := fun k _ => Ci * sign_val * RtoC (theta_grad k);
                 c_lapl := fun _ => sign_val * (Ci * RtoC theta_lapl - RtoC (sum n (fun k => theta_grad k * theta_grad k)%R)) |}, logdet).

(** complex.py 58-61: wrap_componentwise applies the primitive to value, Jacobian and Laplacian
    (core.py 504-533) *)
Definition componentwise {A} (f : C -> C) (v : cvalue A) : cvalue A :=
  match v with
  | CPlain a => CPlain (fun i => f (a i))
  | CTracked t => CTracked {| c_x := fun i => f (c_x t i); c_jac := fun k i => f (c_jac t k i); c_lapl := fun i => f (c_lapl t i) |}
  end.
Definition handle_real {A} := @componentwise A (fun z => RtoC (fst z)).
Definition handle_imag {A} := @componentwise A (fun z => RtoC (snd z)).
Definition handle_conj {A} := @componentwise A Cconj.
(** complex.py 24-56 handle_complex: convert, scale the second by 1j (times a plain array), add;
    the value is lax.complex of the two values *)
Definition scale_i {A} (v : cvalue A) : cvalue A :=
  match v with
  | CPlain a => CPlain (fun i => a i * Ci)
  | CTracked t => CTracked {| c_x := fun i => c_x t i * Ci; c_jac := fun k i => c_jac t k i * Ci; c_lapl := fun i => c_lapl t i * Ci |}
  end.
Definition c_add {A} (u v : cvalue A) : cvalue A :=
  match u, v with
  | CPlain a, CPlain b => CPlain (fun i => a i + b i)
  | CTracked t, CPlain b => CTracked {| c_x := fun i => c_x t i + b i; c_jac := c_jac t; c_lapl := c_lapl t |}
  | CPlain a, CTracked t => CTracked {| c_x := fun i => a i + c_x t i; c_jac := c_jac t; c_lapl := c_lapl t |}
  | CTracked s, CTracked t => CTracked {| c_x := fun i => c_x s i + c_x t i; c_jac := fun k i => c_jac s k i + c_jac t k i; c_lapl := fun i => c_lapl s i + c_lapl t i |}
  end.
Definition c_primal {A} (v : cvalue A) : A -> C := match v with CPlain a => a | CTracked t => c_x t end.
Definition handle_complex {A} (re im : cvalue A) : cvalue A :=
  match c_add re (scale_i im) with
  | CTracked t => CTracked {| c_x := fun i => (fst (c_primal re i), fst (c_primal im i)); c_jac := c_jac t; c_lapl := c_lapl t |}
  | CPlain a => CPlain a
  end.
