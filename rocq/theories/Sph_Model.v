(** Model of /repo/src/jaqmc/estimator/kinetic/spherical.py and of /repo/src/jaqmc/app/hall/hamiltonian.py.

    The estimator reads the first and second derivatives of log psi that jax.grad, jax.jacrev and
    jax.hessian return; here they come in a record.  Simplifications: exact arithmetic; a real multiplying
    a complex is that complex number times (x, 0); tan is sin/cos. *)
From Coq Require Import Reals List Arith Lra.
From Coquelicot Require Import Coquelicot.
From Verif Require Import Det.
Import ListNotations.
Open Scope R_scope.

Definition config := nat -> R * R.
Definition total (n : nat) (f : nat -> C) : C := bigsum (RtoC 0) Cplus n f.
Definition Ci : C := (0, 1).
(** derivatives of log psi: [dt i], [dp i] are grad[i, 0] and grad[i, 1]; [dtt i j], [dtp i j], [dpp i j] are
    hess[i, 0, j, 0], hess[i, 0, j, 1] and hess[i, 1, j, 1] *)
Record log_tables := { dt : nat -> C; dp : nat -> C; dtt : nat -> nat -> C; dtp : nat -> nat -> C; dpp : nat -> nat -> C }.

(** lines 54-62 and 202-211 *)
Definition r_hat (x : R * R) (a : nat) : R := nth a [sin (fst x) * cos (snd x); sin (fst x) * sin (snd x); cos (fst x)] 0.
Definition phi_hat (x : R * R) (a : nat) : R := nth a [- sin (snd x); cos (snd x); 0] 0.
Definition theta_hat' (x : R * R) (a : nat) : R := nth a [cos (snd x) / tan (fst x); sin (snd x) / tan (fst x); - (1)] 0.

(** SphericalKinetic._evaluate_hessian, lines 159-197 *)
Definition magnetic_contribution (n : nat) (Q : R) (e : config) (gp : nat -> C) : C :=
  total n (fun i => Cplus (RtoC ((Q / tan (fst (e i))) ^ 2)) (Cmult (Cmult (Cmult (RtoC 2) Ci) (RtoC (Q * cos (fst (e i)) / sin (fst (e i)) ^ 2))) (gp i))).
Definition square_grad (n : nat) (e : config) (gt gp : nat -> C) : C :=
  total n (fun i => Cplus (Cmult (gt i) (gt i)) (Cdiv (Cmult (gp i) (gp i)) (RtoC (sin (fst (e i)) ^ 2)))).
Definition kinetic_hessian (n : nat) (Q r : R) (e : config) (t : log_tables) : C :=
  let grad_grad := total n (fun i => Cplus (Cplus (Cdiv (dt t i) (RtoC (tan (fst (e i))))) (dtt t i i)) (Cdiv (dpp t i i) (RtoC (sin (fst (e i)) ^ 2)))) in
  let lambda2 := Cplus (Cminus (Copp grad_grad) (square_grad n e (dt t) (dp t))) (magnetic_contribution n Q e (dp t)) in
  Cdiv (Cdiv lambda2 (RtoC 2)) (RtoC (r ^ 2)).
(** _evaluate_forward_laplacian, lines 250-282: [jac] is the Jacobian the forward Laplacian returns for the weighted
    input, electron by electron, [lap] its Laplacian *)
Definition fwdlap_weight (x : R * R) : R * R := (1, / sin (fst x)).
Definition kinetic_forward (n : nat) (Q r : R) (e : config) (jac : nat -> C * C) (lap : C) : C :=
  let gt i := Cdiv (fst (jac i)) (RtoC (fst (fwdlap_weight (e i)))) in
  let gp i := Cdiv (snd (jac i)) (RtoC (snd (fwdlap_weight (e i)))) in
  let grad_grad := Cplus (total n (fun i => Cdiv (gt i) (RtoC (tan (fst (e i)))))) lap in
  let lambda2 := Cplus (Cminus (Copp grad_grad) (square_grad n e gt gp)) (magnetic_contribution n Q e gp) in
  Cdiv (Cdiv lambda2 (RtoC 2)) (RtoC (r ^ 2)).

(** magnetic_term, line 217 *)
Definition magnetic (Q : R) (x : R * R) (a : nat) : R := Q * (theta_hat' x a * cos (fst x) + r_hat x a).
Definition axes (f : nat -> C) : C := Cplus (Cplus (f 0%nat) (f 1%nat)) (f 2%nat).
(** angular momentum from the Hessian, lines 213-233; jnp.sum over the axis and both electron indices *)
Definition angular_square_hessian (n : nat) (Q : R) (e : config) (t : log_tables) : C :=
  let htt i j := Cplus (dtt t i j) (Cmult (dt t i) (dt t j)) in
  let htp i j := Cplus (dtp t i j) (Cmult (dt t i) (dp t j)) in
  let hpp i j := Cplus (dpp t i j) (Cmult (dp t i) (dp t j)) in
  Cminus
    (axes (fun a => total n (fun i => total n (fun j =>
       Cplus (Cminus (Cminus (Cminus
         (Cmult (RtoC (2 * phi_hat (e i) a * theta_hat' (e j) a)) (htp i j))
         (Cmult (RtoC (phi_hat (e i) a * phi_hat (e j) a)) (htt i j)))
         (Cmult (RtoC (theta_hat' (e i) a * theta_hat' (e j) a)) (hpp i j)))
         (Cmult (Cmult (Cmult (RtoC 2) Ci) (RtoC (magnetic Q (e j) a))) (Cminus (Cmult (RtoC (phi_hat (e i) a)) (dt t i)) (Cmult (RtoC (theta_hat' (e i) a)) (dp t i)))))
         (RtoC (magnetic Q (e i) a * magnetic Q (e j) a))))))
    (total n (fun i => Cdiv (dt t i) (RtoC (tan (fst (e i)))))).
Record angular_stats := { lz : R; lz_square : R; l_square : R }.
(** lines 235-240 *)
Definition angular_hessian (n : nat) (Q : R) (e : config) (t : log_tables) : angular_stats :=
  {| lz := snd (total n (dp t));
     lz_square := - fst (total n (fun i => total n (fun j => Cplus (dpp t i j) (Cmult (dp t i) (dp t j)))));
     l_square := fst (angular_square_hessian n Q e t) |}.

(** _angular_momentum_operator, lines 51-74: component a of the differential and of the magnetic term *)
Definition differential_term (n : nat) (e : config) (gt gp : nat -> C) (a : nat) : C :=
  total n (fun i => Cmult (Copp Ci) (Cminus (Cmult (RtoC (phi_hat (e i) a)) (gt i)) (Cmult (RtoC (theta_hat' (e i) a)) (gp i)))).
Definition magnetic_term (n : nat) (Q : R) (e : config) (a : nat) : C :=
  Cmult (RtoC Q) (total n (fun i => RtoC (theta_hat' (e i) a * cos (fst (e i)) + r_hat (e i) a))).
Definition l_on_log (n : nat) (Q : R) (e : config) (gt gp : nat -> C) (a : nat) : C :=
  Cplus (differential_term n e gt gp a) (magnetic_term n Q e a).
(** _angular_momentum_square, lines 93-111; [jt a i], [jp a i] is the Jacobian of component a of l_on_log *)
Definition angular_double (n : nat) (Q : R) (e : config) (gt gp : nat -> C) (jt jp : nat -> nat -> C) : angular_stats :=
  let am := l_on_log n Q e gt gp in
  let l2 a := Cplus (differential_term n e (jt a) (jp a) a) (Cmult (am a) (am a)) in
  {| lz := fst (am 2%nat); lz_square := fst (l2 2%nat); l_square := fst (axes l2) |}.

(** ** SpherePotential, app/hall/hamiltonian.py 46-61 *)
Definition rtotal (n : nat) (f : nat -> R) : R := bigsum 0 Rplus n f.
Definition cos12 (e : config) (i j : nat) : R := rtotal 3 (fun a => r_hat (e i) a * r_hat (e j) a).
Definition sphere_potential (n : nat) (strength radius : R) (e : config) : R :=
  rtotal n (fun i => rtotal n (fun j => if Nat.ltb i j then 1 / sqrt (2 - 2 * cos12 e i j) else 0)) / radius * strength.
