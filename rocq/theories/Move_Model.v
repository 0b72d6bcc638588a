(** Model of one walker's DMC step: /repo/src/jaqmc_legacy/dmc/position_update.py and
    dmc.py 574-770 (calc_branch_val, do_run_dmc_single_walker, do_run_dmc_single_walker_ebye).

    Real numbers for floats; [None] is NaN (a division 0/0 on the way). A configuration is the
    list of the electrons' positions (the code's array reshaped to (-1, 3)). The random numbers
    are arguments. erfc is a parameter. The wavefunction is its value: the sign and the
    logarithm of the absolute value the code gets are those of that value, -inf at 0. *)
From Coq Require Import Reals List Bool Arith.
Import ListNotations.
Open Scope R_scope.

Definition vec := (R * R * R)%type.
Definition vadd (a b : vec) : vec := let '(x, y, z) := a in let '(x', y', z') := b in (x + x', y + y', z + z').
Definition vsub (a b : vec) : vec := let '(x, y, z) := a in let '(x', y', z') := b in (x - x', y - y', z - z').
Definition vscale (t : R) (a : vec) : vec := let '(x, y, z) := a in (t * x, t * y, t * z).
Definition vdot (a b : vec) : R := let '(x, y, z) := a in let '(x', y', z') := b in x * x' + y * y' + z * z'.
Definition norm (a : vec) : R := sqrt (vdot a a).
Definition vzero : vec := (0, 0, 0).

Definition obind {A B} (o : option A) (f : A -> option B) : option B := match o with Some a => f a | None => None end.
(** numpy's x / y, NaN for y = 0 (used where the numerator vanishes with the denominator). *)
Definition unit_of (a : vec) : option vec := if Req_EM_T (norm a) 0 then None else Some (vscale (/ norm a) a).

(** to_nearest_nucleus 304-310: jnp.argmin, the first of the smallest. *)
Fixpoint nearest_from (pos : vec) (i : nat) (best : nat) (d : R) (nuclei : list vec) : nat :=
  match nuclei with
  | [] => best
  | n :: l => if Rlt_dec (norm (vsub pos n)) d then nearest_from pos (S i) i (norm (vsub pos n)) l else nearest_from pos (S i) best d l
  end.
Definition nearest (pos : vec) (nuclei : list vec) : nat :=
  match nuclei with [] => 0%nat | n :: l => nearest_from pos 1 0 (norm (vsub pos n)) l end.

(** calc_per_electron_weight_control_helper 312-318. *)
Definition weight_control (velocity position nucleus : vec) (charge : R) : option R :=
  let to_nucleus := vsub position nucleus in
  let d := norm to_nucleus in
  obind (unit_of velocity) (fun v => obind (unit_of to_nucleus) (fun u =>
  Some (1 / 2 * (1 + vdot v u) + (if Req_EM_T (charge * d) 0 then 0 else 1 / 10 / (4 / (charge * d) ^ 2 + 1))))).

(** clip_velocity_helper 320-338. *)
Definition clip_threshold : R := 2 / 10 ^ 4.
Definition clip_factor (x : R) : R := if Rlt_dec x clip_threshold then 1 else (-1 + sqrt (1 + 2 * x)) / x.
Definition clip_velocity (velocity position nucleus : vec) (charge time_step : R) : option vec :=
  obind (weight_control velocity position nucleus charge) (fun w =>
  Some (vscale (clip_factor (w * vdot velocity velocity * time_step)) velocity)).

(** do_drift 236-250. *)
Definition do_drift (position nucleus v : vec) (time_step : R) : option vec :=
  let d := norm (vsub position nucleus) in
  obind (unit_of (vsub position nucleus)) (fun u =>
  let v_z := vdot v u in
  let v_rho_vec := vsub v (vscale v_z u) in
  obind (unit_of v_rho_vec) (fun e =>
  let z2 := Rmax (d + v_z * time_step) 0 in
  let rho2 := 2 * norm v_rho_vec * time_step * z2 / (d + z2) in
  Some (vadd (vadd nucleus (vscale z2 u)) (vscale rho2 e)))).

(** sample_gamma 268-277: [g] is the gamma variate, [phi] the angle, [w] the uniform number. *)
Definition sample_gamma (zeta g phi w : R) : vec :=
  let r := g * (1 / 2) / zeta in
  let theta := acos (1 - 2 * w) in
  (r * cos phi * sin theta, r * sin phi * sin theta, r * cos theta).

Section Walker.
Variable erfc : R -> R.

(** calc_nucleus_overshoot_prob_helper 279-285. *)
Definition overshoot (position nucleus v : vec) (time_step : R) : option R :=
  let d := norm (vsub position nucleus) in
  obind (unit_of (vsub position nucleus)) (fun u => Some (1 / 2 * erfc ((d + vdot v u * time_step) / sqrt (2 * time_step)))).

(** calc_G_log 287-302. *)
Definition g1 (time_step : R) (xi : vec) : R := exp (- (3 / 2) * ln (2 * PI * time_step) - 1 / 2 * vdot xi xi / time_step).
Definition g2 (zeta : R) (xi : vec) : R := exp (3 * ln zeta - 2 * zeta * norm xi) / PI.
Definition G_log (updated nucleus drifted : vec) (q zeta time_step : R) : R :=
  let p := 1 - q in
  ln (p * g1 time_step (vsub updated drifted) + (1 - p) * g2 zeta (vsub updated nucleus)).

(** What single_electron_wrapper 12-37 computes before the move: the clipped velocity, the
    drifted position, the overshoot probability, the nucleus and zeta. *)
Record prep := { clipped : vec; drifted : vec; over : R; nuc : vec; zeta : R }.
Definition prepare (position velocity : vec) (nuclei : list vec) (charges : list R) (time_step : R) : option prep :=
  let k := nearest position nuclei in
  let nucleus := nth k nuclei vzero in
  let charge := nth k charges 0 in
  let z := sqrt (charge ^ 2 + 1 / time_step) in
  obind (clip_velocity velocity position nucleus charge time_step) (fun v =>
  obind (do_drift position nucleus v time_step) (fun d =>
  obind (overshoot position nucleus v time_step) (fun q =>
  Some {| clipped := v; drifted := d; over := q; nuc := nucleus; zeta := z |}))).

(** do_diffusion 252-266. *)
Record draws := { d_u : R; d_normal : vec; d_gamma : R; d_phi : R; d_w : R }.
Definition delta_R (p : prep) (time_step : R) (d : draws) : vec :=
  if Rlt_dec (d_u d) (1 - over p) then vscale (sqrt time_step) (d_normal d) else sample_gamma (zeta p) (d_gamma d) (d_phi d) (d_w d).
Definition diffuse (p : prep) (time_step : R) (d : draws) : vec :=
  vadd (if Rlt_dec (d_u d) (1 - over p) then drifted p else nuc p) (delta_R p time_step d).
Definition G_to (p : prep) (time_step : R) (updated : vec) : R := G_log updated (nuc p) (drifted p) (over p) (zeta p) time_step.

Variable nuclei : list vec.
Variable charges : list R.
Variable time_step : R.
Definition prep1 (position velocity : vec) : option prep := prepare position velocity nuclei charges time_step.

Fixpoint all {A} (l : list (option A)) : option (list A) :=
  match l with [] => Some [] | o :: l' => obind o (fun a => obind (all l') (fun r => Some (a :: r))) end.
Definition rsum (l : list R) : R := fold_right Rplus 0 l.

(** from_orig_config_wrapper 39-57: the new configuration, the sum of the logarithms of the
    Green functions and the length of the displacement. *)
Definition from_orig (position velocity : list vec) (ds : list draws) : option (list vec * R * R) :=
  obind (all (map (fun x => prep1 (fst x) (snd x)) (combine position velocity))) (fun ps =>
  let moved := map (fun x => diffuse (fst x) time_step (snd x)) (combine ps ds) in
  Some (moved, rsum (map (fun x => G_to (fst x) time_step (snd x)) (combine ps moved)),
        sqrt (rsum (map (fun x => let v := delta_R (fst x) time_step (snd x) in vdot v v) (combine ps ds))))).
(** from_updated_config_wrapper 59-86: the moves start at the updated positions, with the
    updated velocities, and end at the original ones. *)
Definition from_updated (position updated velocity : list vec) : option R :=
  obind (all (map (fun x => prep1 (fst x) (snd x)) (combine updated velocity))) (fun ps =>
  Some (rsum (map (fun x => G_to (fst x) time_step (snd x)) (combine ps position)))).

Variable psi : list vec -> R.
Variable velocity_func : list vec -> list vec.
Variable local_energy : list vec -> R.

Definition clip01 (x : R) : R := Rmax 0 (Rmin x 1).
(** acceptance_rate: dmc.py 633-645. psi' = 0: the logarithm is -inf and the rate 0; psi = 0:
    it is +inf and the rate 1; both: NaN. *)
Definition log_boost (age : R) : R := ln (11 / 10) * Rmax (age - 50) 0.
Definition acceptance (p p' : R) (G_back : option R) (G_forw age : R) : option R :=
  if Rlt_dec (p * p') 0 then Some 0
  else obind G_back (fun G_back =>
  if Req_EM_T p' 0 then (if Req_EM_T p 0 then None else Some 0)
  else if Req_EM_T p 0 then Some 1
  else Some (clip01 (exp (2 * (ln (Rabs p') - ln (Rabs p)) + G_back - G_forw + log_boost age)))).

(** calc_branch_val: dmc.py 574-595. [n] is the number of electrons. *)
Definition sign (x : R) : R := if Rlt_dec x 0 then -1 else if Rlt_dec 0 x then 1 else 0.
Definition clip_energy (pair : option (R * R)) (e : R) : R := match pair with Some (lo, hi) => Rmin (Rmax e lo) hi | None => e end.
Definition branch_val (v_norm : R) (clipped_norm : option R) (e offset estimator alpha : R) (n : nat) (pair : option (R * R)) : option R :=
  let e := clip_energy pair e in
  if Rlt_dec alpha 0 then obind clipped_norm (fun c => if Req_EM_T v_norm 0 then None else Some (offset - estimator + (estimator - e) * (c / v_norm)))
  else
    let cutoff := alpha * sqrt (INR n / time_step) in
    Some (offset - estimator + sign (estimator - e) * Rmin cutoff (Rabs (estimator - e))).

(** The norm of a configuration's velocities. *)
Definition cnorm (l : list vec) : R := sqrt (rsum (map (fun v => vdot v v) l)).
Definition clipped_norm (position velocity : list vec) : option R :=
  obind (all (map (fun x => let k := nearest (fst x) nuclei in clip_velocity (snd x) (fst x) (nth k nuclei vzero) (nth k charges 0) time_step) (combine position velocity)))
        (fun l => Some (cnorm l)).
(** nan_to_num: NaN becomes 0. *)
Definition num (o : option R) : R := match o with Some x => x | None => 0 end.

(** do_run_dmc_single_walker 597-688, without the debug values, followed by the nan_to_num of
    run_dmc_single_walker 755-770 (mask 1); [u] is the uniform number of the acceptance. When
    the updated position is NaN, so are its energy, the acceptance and what depends on them;
    the comparison with [u] is false. *)
Record outcome := { o_position : list vec; o_age : R; o_energy : R; o_average : R; o_log_weight : R; o_delta : R; o_rate : R }.
Definition step (position : list vec) (age energy : R) (ds : list draws) (u offset estimator alpha : R) (pair : option (R * R)) : outcome :=
  let velocity := velocity_func position in
  match from_orig position velocity ds with
  | None => {| o_position := position; o_age := age + 1; o_energy := energy; o_average := 0; o_log_weight := 0; o_delta := 0; o_rate := 0 |}
  | Some (updated, Gf, dR) =>
      let velocity' := velocity_func updated in
      let rate := acceptance (psi position) (psi updated) (from_updated position updated velocity') Gf age in
      let energy' := local_energy updated in
      let n := List.length position in
      let b := branch_val (cnorm velocity) (clipped_norm position velocity) energy offset estimator alpha n pair in
      let b' := branch_val (cnorm velocity') (clipped_norm updated velocity') energy' offset estimator alpha n pair in
      let accepted := match rate with Some r => if Rlt_dec u r then true else false | None => false end in
      {| o_position := if accepted then updated else position;
         o_age := if accepted then 1 else age + 1;
         o_energy := if accepted then energy' else energy;
         o_average := num (obind rate (fun r => Some (r * energy' + (1 - r) * energy)));
         o_log_weight := num (obind rate (fun r => obind b (fun b => obind b' (fun b' => Some (r / 2 * (b + b') + (1 - r) * b)))));
         o_delta := dR; o_rate := num rate |}
  end.

(** from_orig_config_wrapper_ebye 88-222: one electron after the other. *)
Fixpoint put (l : list vec) (i : nat) (v : vec) : list vec :=
  match l, i with [], _ => [] | _ :: l', O => v :: l' | x :: l', S i' => x :: put l' i' v end.
(** 142-148: clip and the sign condition. *)
Definition acceptance_one (p p' G_back G_forw : R) : option R :=
  if Req_EM_T p 0 then (if Req_EM_T p' 0 then None else Some 0)
  else if Req_EM_T p' 0 then Some 0
  else Some (clip01 (exp (2 * (ln (Rabs p') - ln (Rabs p)) + G_back - G_forw)) * (if Rlt_dec 0 (p * p') then 1 else 0)).
Record loop := { l_position : list vec; l_velocity : list vec; l_p : R; l_p_delta : R; l_delta : R }.
(** helper 107-166; [None]: a NaN, after which the sums are NaN. *)
Definition move_one (i : nat) (d : draws) (u : R) (s : loop) : option loop :=
  obind (prep1 (nth i (l_position s) vzero) (nth i (l_velocity s) vzero)) (fun p =>
  let y := diffuse p time_step d in
  let updated := put (l_position s) i y in
  let dd := vdot (delta_R p time_step d) (delta_R p time_step d) in
  let velocity' := velocity_func updated in
  obind (prep1 (nth i updated vzero) (nth i velocity' vzero)) (fun p' =>
  obind (acceptance_one (psi (l_position s)) (psi updated) (G_to p' time_step (nth i (l_position s) vzero)) (G_to p time_step y)) (fun rate =>
  let cond := if Rlt_dec u rate then true else false in
  Some {| l_position := if cond then updated else l_position s;
          l_velocity := if cond then velocity' else l_velocity s;
          l_p := l_p s + rate; l_p_delta := l_p_delta s + rate * dd; l_delta := l_delta s + dd |}))).
Fixpoint move_all (i : nat) (rs : list (draws * R)) (s : loop) : option loop :=
  match rs with [] => Some s | (d, u) :: rs' => obind (move_one i d u s) (move_all (S i) rs') end.
(** The whole: the loop over the electrons, the mean acceptance and the effective time step. *)
Definition ebye (position : list vec) (rs : list (draws * R)) : option (loop * R * R) :=
  obind (move_all 0 rs {| l_position := position; l_velocity := velocity_func position; l_p := 0; l_p_delta := 0; l_delta := 0 |}) (fun s =>
  Some (s, l_p s / INR (List.length position), time_step * l_p_delta s / l_delta s)).
End Walker.
