(** Model of PairCorrelation, /repo/src/jaqmc/app/hall/estimator/pair_correlation.py, and of how its state is divided among
    devices (workflow/stage/sampling.py 45-57, evaluation.py 237-248).

    Simplifications: exact arithmetic; a walker is a configuration of [n] electrons; 1/sin(theta) of a pair at
    distance 0 or pi is infinite in the code (the theorems assume there is none). *)
From Coq Require Import Reals List Arith Bool Lra.
From Verif Require Import Est_Model Wf_Model Sph_Model Sphere_Model.
Import ListNotations.
Open Scope R_scope.

(** lines 54-66: cos12 clipped to [-1, 1], arccos, the pairs i < j *)
Definition geodesic (e : config) (i j : nat) : R := acos (clip (-1) 1 (cos12 e i j)).
Definition pair_angles (n : nat) (walkers : list config) : list R :=
  flat_map (fun e => map (fun p => geodesic e (fst p) (snd p)) (upper_pairs 0 n)) walkers.
(** lines 68-70: jnp.histogram over (0, pi) with weights; the bin of a value is that of histogramdd (Est_Model.bin_of) *)
Definition pair_edges (bins : nat) : list R := map (fun k => INR k * (PI / INR bins)) (seq 0 (bins + 1)).
Definition pair_histogram (n bins : nat) (walkers : list config) (b : nat) : R :=
  rsum (map (fun t => match bin_of (pair_edges bins) (Some t) with Some b' => if Nat.eqb b' b then 1 / sin t else 0 | None => 0 end) (pair_angles n walkers)).
(** lines 71-73 *)
Definition pair_added (n bins : nat) (walkers : list config) (b : nat) : R :=
  pair_histogram n bins walkers b * 4 * INR bins / INR (length walkers) / INR n ^ 2 / PI.
(** init (line 43) and one device *)
Definition zeros (k : nat) : list R := repeat 0 k.
Definition added_array (n bins : nat) (walkers : list config) : list R := map (pair_added n bins walkers) (seq 0 bins).
(** state + to_add, with the broadcasting of shapes; None: the shapes do not match and jax raises *)
Definition broadcast_add (s a : list R) : option (list R) :=
  if Nat.eqb (length s) (length a) then Some (map (fun p => fst p + snd p) (combine s a))
  else if Nat.eqb (length s) 1 then Some (map (fun x => hd 0 s + x) a)
  else if Nat.eqb (length a) 1 then Some (map (fun x => x + hd 0 a) s)
  else None.
(** shard_map with the state split along its first axis: device d holds the d-th part; None when the length is not a
    multiple of the number of devices or a device raises *)
Fixpoint all_some (l : list (option (list R))) : option (list (list R)) :=
  match l with [] => Some [] | x :: l' => match x, all_some l' with Some a, Some b => Some (a :: b) | _, _ => None end end.
Definition part (s : list R) (size d : nat) : list R := firstn size (skipn (d * size) s).
Definition sharded_step (n bins : nat) (state : list R) (walkers : list (list config)) : option (list R) :=
  let devices := length walkers in
  if Nat.eqb (length state mod devices) 0 then
    option_map (@concat R) (all_some (map (fun p => broadcast_add (part state (length state / devices) (fst p)) (added_array n bins (snd p))) (combine (seq 0 devices) walkers)))
  else None.
Fixpoint sharded_run (n bins : nat) (state : list R) (stream : list (list (list config))) : option (list R) :=
  match stream with [] => Some state | w :: rest => match sharded_step n bins state w with Some s => sharded_run n bins s rest | None => None end end.
(** digest, estimator/base.py 421-427: finalize_stats (lines 79-82) and the inherited finalize_state (195-210) return nothing *)
Definition pair_digest (state : list R) (n_steps : nat) : list (nat * list R) := [].
