(** What the stochastic-reconfiguration update means (docs/guide/optimizers/sr-spring-march.md),
    in parameter space and without kernel matrices, devices or chunks. *)
From Coq Require Import Reals Arith.
From Verif Require Import Lin Sr_Model.
Open Scope R_scope.

(** The covariance (Fisher) matrix of the weighted scores of the whole batch; real part for
    complex scores. *)
Section Fisher.
Variable b : batch.
Variable weight : nat -> nat -> R.
Definition samples : R := INR (devices b * n_local b).
Definition over_samples (f : nat -> nat -> R) : R := sum (devices b) (fun d => sum (n_local b) (fun i => f d i)).
Definition deviation (x : nat -> nat -> nat -> R) (d i a : nat) : R :=
  weight d i * x d i a - over_samples (fun d i => weight d i * x d i a) / samples.
Definition fisher (a c : nat) : R :=
  over_samples (fun d i => deviation (re b) d i a * deviation (re b) d i c + (if cplx b then deviation (im b) d i a * deviation (im b) d i c else 0)) / samples.
End Fisher.

(** H + lambda M for a diagonal metric M *)
Definition damped (h : mat) (m : vec) (lam : R) : mat := fun a c => h a c + lam * (m a * delta a c).
Definition solves (n : nat) (a : mat) (x rhs : vec) : Prop := forall i, (i < n)%nat -> sum n (fun j => a i j * x j) = rhs i.
(** SPRING / SR step minus the robust correction:
    (H + lam M) x = g + lam M p, (H + lam M) y = g, (H + lam M) y' = M y,
    delta = x - lam (1 - gam lam) y' *)
Definition robust_solution (n : nat) (h : mat) (m : vec) (lam gam : R) (g p d : vec) : Prop :=
  exists x y y',
    solves n (damped h m lam) x (fun a => g a + lam * (m a * p a)) /\
    solves n (damped h m lam) y g /\
    solves n (damped h m lam) y' (fun a => m a * y a) /\
    forall a, (a < n)%nat -> d a = x a - lam * (1 - gam * lam) * y' a.

(** Settings for which the optimizer is meant to be used. *)
Definition usable (cfg : settings) : Prop :=
  0 < eps cfg /\ (forall t, 0 < damping cfg t) /\
  (forall beta t, march cfg = Some beta -> 0 <= beta t <= 1) /\
  match chunks cfg with Some k => (1 <= k)%nat | None => True end.
Definition nonempty (b : batch) : Prop := (1 <= devices b)%nat /\ (1 <= n_local b)%nat.
Definition nonneg_var (st : state) : Prop := forall a, 0 <= acc_var st a.
(** the metric M of the current step *)
Definition metric (cfg : settings) (b : batch) (st : state) : vec :=
  match march cfg with Some _ => fun a => sqrt (current_var cfg b st a + eps cfg) | None => fun _ => 1 end.
