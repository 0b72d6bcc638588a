(** Specification for C87: the losses of jaqmc_legacy.

    Averages over walkers, and estimates reweighted from the parameters at which the walkers
    were drawn to other ones: a walker drawn with density psi_0^2 counts (psi/psi_0)^2. *)
From Coq Require Import Reals List.
Import ListNotations.
Open Scope R_scope.

Fixpoint total (l : list R) : R := match l with [] => 0 | x :: t => x + total t end.
Definition mean (l : list R) : R := total l / INR (List.length l).
Definition average {W} (f : W -> R) (ws : list W) : R := mean (map f ws).
(** <(f - <f>) g> *)
Definition covariance {W} (f g : W -> R) (ws : list W) : R := average (fun w => (f w - average f ws) * g w) ws.
Definition deviation (l : list R) : R := mean (map (fun x => Rabs (x - mean l)) l).

(** The estimate of <f> at parameter t, from walkers drawn at parameter t0. *)
Definition reweighted {W} (psi : R -> W -> R) (t0 : R) (f : R -> W -> R) (ws : list W) (t : R) : R :=
  total (map (fun w => (psi t w / psi t0 w) * (psi t w / psi t0 w) * f t w) ws) /
  total (map (fun w => (psi t w / psi t0 w) * (psi t w / psi t0 w)) ws).

(** Exact expectation over a finite set of points, with weights. *)
Definition expectation {W} (weight f : W -> R) (points : list W) : R :=
  total (map (fun x => weight x * f x) points) / total (map weight points).
(** The walkers sample the distribution exactly: the frequencies are the probabilities. *)
Definition samples {W} (ws : list W) (weight : W -> R) (points : list W) : Prop :=
  forall f, average f ws = expectation weight f points.
