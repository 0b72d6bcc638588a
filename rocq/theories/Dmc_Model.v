(** Model of the scalar part of a DMC iteration:
    /repo/src/jaqmc_legacy/dmc/energy_estimator.py (MixedEstimatorCalculator),
    /repo/src/jaqmc_legacy/dmc/effective_time_step_calculator.py (EffectiveTimeStepCalculator),
    /repo/src/jaqmc_legacy/dmc/dmc.py 345-572 (make_dmc_single_iteration, average_energy,
    update_energy_offset) and the loop at 281-309.

    Real numbers for floats.  One host: agg_sum and agg_mean are the plain sum and weighted mean
    (utils.py 40-59).  Walker arrays are lists of equal length.  dmc_step (the move) and branch are
    parameters: whatever they return. *)
From Coq Require Import Reals List Arith Bool.
Import ListNotations.
Open Scope R_scope.

Definition sum (l : list R) : R := fold_right Rplus 0 l.
Fixpoint dot (a b : list R) : R := match a, b with x :: a', y :: b' => x * y + dot a' b' | _, _ => 0 end.
(** collections.deque with maxlen [n]: append drops from the left *)
Definition push (n : nat) (q : list R) (x : R) : list R := let l := q ++ [x] in skipn (length l - n) l.

(** energy_estimator.py 27-33 *)
Record mixed := { m_steps : nat; m_window : nat; m_energy : list R; m_pilog : list R; m_weight : list R; m_offset : list R }.
Definition mixed_new (steps window : nat) : mixed := {| m_steps := steps; m_window := window; m_energy := []; m_pilog := []; m_weight := []; m_offset := [] |}.
(** np.max; [None] = ValueError on an empty array *)
Definition maximum (l : list R) : option R := match l with [] => None | x :: l' => Some (fold_left Rmax l' x) end.
(** 35-46 *)
Definition normalized (pilog : list R) : option (list R) := match maximum pilog with None => None | Some mx => Some (map (fun p => exp (p - mx)) pilog) end.
(** 48-53: sum of the elementwise product *)
Definition numerator (weight pi energy : list R) : R := sum (map (fun x => fst (fst x) * snd (fst x) * snd x) (combine (combine energy pi) weight)).
(** 55-57 *)
Definition denominator (weight pi : list R) : R := dot weight pi.
(** 59-82: the new calculator and the estimate *)
Definition mixed_run (c : mixed) (energy_offset energy total_weight time_step : R) : option (mixed * R) :=
  let offs := push (m_steps c) (m_offset c) energy_offset in
  let pilog := push (m_window c) (m_pilog c) (- time_step * sum offs) in
  match normalized pilog with
  | None => None
  | Some pi =>
      let es := push (m_window c) (m_energy c) energy in
      let ws := push (m_window c) (m_weight c) total_weight in
      Some ({| m_steps := m_steps c; m_window := m_window c; m_energy := es; m_pilog := pilog; m_weight := ws; m_offset := offs |},
            numerator ws pi es / denominator ws pi)
  end.

(** effective_time_step_calculator.py 12-18 *)
Record eff := { e_total : R; e_den : R; e_num : R; e_step : R }.
Definition eff_new (time_step : R) : eff := {| e_total := 0; e_den := 0; e_num := 0; e_step := time_step |}.
(** 20-40; a walker is (displacement, acceptance rate, weight) *)
Definition eff_update (c : eff) (walkers : list (R * R * R)) : eff :=
  let neww := sum (map snd walkers) in
  let total := e_total c + neww in
  let avg := sum (map (fun x => fst (fst x) ^ 2 * snd x) walkers) / neww in
  let acc := sum (map (fun x => snd (fst x) * fst (fst x) ^ 2 * snd x) walkers) / neww in
  {| e_total := total;
     e_den := e_den c * (e_total c / total) + avg * (neww / total);
     e_num := e_num c * (e_total c / total) + acc * (neww / total); e_step := e_step c |}.
(** 42-51; a walker is (its effective time step, weight) *)
Definition eff_update_ebye (c : eff) (walkers : list (R * R)) : eff :=
  let total := e_total c + sum (map snd walkers) in
  {| e_total := total; e_den := total * e_step c; e_num := e_num c + sum (map (fun x => fst x * snd x) walkers); e_step := e_step c |}.
(** 53-56; exp (log 0 - log d) is 0 in floating point *)
Definition eff_run (c : eff) : R :=
  if Req_EM_T (e_total c) 0 then e_step c else if Req_EM_T (e_den c) 0 then e_step c
  else e_step c * (if Req_EM_T (e_num c) 0 then 0 else exp (ln (e_num c) - ln (e_den c))).

(** dmc.py 547-557 *)
Definition clip (pair : option (R * R)) (x : R) : R := match pair with None => x | Some (lo, hi) => Rmin (Rmax x lo) hi end.
Definition average_energy (energy weight : list R) (pair : option (R * R)) : R := sum (map (fun x => clip pair (fst x) * (snd x / sum weight)) (combine energy weight)).
(** 559-572 *)
Definition update_energy_offset (estimator amplitude total target : R) : R := estimator - amplitude * ln (total / target).
(** 374-384 *)
Definition is_energy_outlier (threshold energy anchor : R) : bool :=
  if Rle_dec threshold 0 then false else
  let a := anchor * (1 - threshold) in let b := anchor * (1 + threshold) in
  if Rlt_dec energy (Rmin a b) then true else if Rlt_dec (Rmax a b) energy then true else false.

(** state.py 18-33; [W] holds the positions, ages and stored local energies of the walkers *)
Section Iteration.
Variable W : Type.
Record state := { walkers : W; weight : list R; offset : R; target : R; estimator : R; calc : mixed; eff_calc : eff }.
Record config := { c_time_step : R; c_threshold : R; c_clip : option (R * R); c_amplitude : R; c_interval : nat; c_period : nat; c_period_neg : bool }.
(** what one call of the non-ebye dmc_step returns: new walkers, their energies, log weight changes,
    displacements and acceptance rates *)
Record move := { mv_walkers : W; mv_energy : list R; mv_delta : list R; mv_disp : list (R * R) }.
(** what branch returns: new weights, walkers and energies *)
Record branched := { br_weight : list R; br_walkers : W; br_energy : list R }.
Inductive output := Rejected (s : state) | Accepted (s : state) (averaged effective : R).
(** 386-545, non-ebye; the default of should_update_effective_time_step is True.  State and
    calculators are one mutable object: a rejected iteration returns the same object, whose
    effective-time-step calculator has been updated in place (450-453 before 463-472).
    [None] = an exception.  Result: new index and output. *)
Definition iteration (c : config) (index : nat) (s : state) (should_update : bool) (mv : move) (br : list R -> branched) : option (nat * output) :=
  let e1 := if should_update then eff_update (eff_calc s) (combine (mv_disp mv) (weight s)) else eff_calc s in
  let effective := eff_run e1 in
  let s1 := {| walkers := walkers s; weight := weight s; offset := offset s; target := target s; estimator := estimator s; calc := calc s; eff_calc := e1 |} in
  let w1 := map (fun x => fst x * exp (effective * snd x)) (combine (weight s) (mv_delta mv)) in
  let before := average_energy (mv_energy mv) w1 (c_clip c) in
  if is_energy_outlier (c_threshold c) before (estimator s) then Some (index, Rejected s1)
  else
    let b := br w1 in
    let total := sum (br_weight b) in
    let averaged := average_energy (br_energy b) (br_weight b) (c_clip c) in
    match mixed_run (calc s) (offset s) averaged total effective with
    | None => None
    | Some (calc', est) =>
        let amp := c_amplitude c * c_time_step c / effective in
        let off := if Nat.eqb (index mod c_interval c) 0 then update_energy_offset est amp total (target s) else offset s in
        Some (S index, Accepted {| walkers := br_walkers b; weight := br_weight b; offset := off; target := target s; estimator := est; calc := calc'; eff_calc := e1 |} averaged effective)
    end.
(** 281-297: the loop computes should_update_effective_time_step but does not pass it *)
Definition should_update (c : config) (t : nat) : bool := c_period_neg c || Nat.eqb (c_period c) 0 || Nat.ltb t (c_period c).
Definition loop_step (c : config) (t : nat) (s : state) (mv : move) (br : list R -> branched) : option (nat * output) :=
  let _ := should_update c t in iteration c t s true mv br.
Definition out_state (o : output) : state := match o with Rejected s => s | Accepted s _ _ => s end.
End Iteration.
