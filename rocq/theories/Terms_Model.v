(** Which estimators the applications run, and the loss that training differentiates:
    make_estimators of /repo/src/jaqmc/app/molecule/workflow.py (153-219),
    app/solid/workflow.py (217-270), app/hydrogen_atom.py (69-73) and app/hall/workflow.py (116-175), HallTrainWorkflow's
    choice of the loss (app/hall/workflow.py 60-77), TotalEnergy
    (estimator/total_energy.py 36-60), PenalizedLoss
    (app/hall/estimator/penalized_loss.py 38-62), LossAndGrad's loss
    (estimator/loss_grad.py 70-94), configure_estimators and configure_loss_grads
    (workflow/stage/sampling.py 112-118, stage/vmc.py 83-115), and the walker loop of
    EstimatorPipeline.evaluate (estimator/base.py 327-362).

    One walker; its statistics are scalars (complex numbers).  The values of the single
    terms (potential, kinetic, ...) are inputs: their formulas are modelled elsewhere.
    Not modelled: gradients, matrices (the one-body density matrix is left out of the
    statistics), and user configuration that replaces the fields of an estimator,
    except the loss key. *)
From Coq Require Import String List Bool Reals.
From Coquelicot Require Import Complex.
From Verif Require Import Common.
Import ListNotations.
Open Scope string_scope.
Open Scope bool_scope.
Set Implicit Arguments.

Definition stats := list (string * C).
Definition est := stats -> res stats.

(** The walker part of EstimatorPipeline.evaluate, estimator/base.py 350-358. *)
Fixpoint evaluate_walker (es : list (string * est)) (prev : stats) : res stats :=
  match es with
  | [] => Ok prev
  | (_, e) :: rest => bind (e prev) (fun parts => evaluate_walker rest (dict_update prev parts))
  end.

(** [prev_walker_stats[name]] *)
Definition lookup (prev : stats) (name : string) : res C :=
  match dict_get prev name with Some v => Ok v | None => Raise KeyError end.

(** TotalEnergy.evaluate_single_walker, estimator/total_energy.py 36-60. *)
Definition energy_keys (prev : stats) : list string :=
  filter (fun k => String.prefix "energy:" k) (map fst prev).
Fixpoint add_up (prev : stats) (names : list string) (total : C) : res C :=
  match names with
  | [] => Ok total
  | n :: rest => bind (lookup prev n) (fun v => add_up prev rest (total + v)%C)
  end.
Definition total_energy (output : string) (components : option (list string)) : est := fun prev =>
  let keys := match components with Some ks => ks | None => energy_keys prev end in
  bind (add_up prev keys (RtoC 0)) (fun t => Ok [(output, t)]).

(** PenalizedLoss.evaluate_single_walker, penalized_loss.py 38-62. *)
Definition nonzero (x : R) : bool := if Req_EM_T x 0 then false else true.
Definition penalized_loss (lz_center lz_penalty l2_penalty : R) : est := fun prev =>
  bind (lookup prev "total_energy") (fun loss =>
  bind (if nonzero lz_penalty then
          bind (lookup prev "angular_momentum_z") (fun lz =>
          bind (lookup prev "angular_momentum_z_square") (fun lz_sq =>
          Ok (loss + RtoC lz_penalty * (lz_sq - RtoC 2 * RtoC lz_center * lz + RtoC lz_center * RtoC lz_center))%C))
        else Ok loss) (fun loss =>
  bind (if nonzero l2_penalty then
          bind (lookup prev "angular_momentum_square") (fun l2 => Ok (loss + RtoC l2_penalty * l2)%C)
        else Ok loss) (fun loss =>
  Ok [("penalized_loss", loss)]))).

(** The values of the terms for one walker. *)
Record values := {
  v_potential : C; v_kinetic : C; v_ecp : C;
  v_ph_derivative : C; v_ph_zero : C;
  v_lz : C; v_lz_square : C; v_l_square : C;
  v_spin : C; v_logpsi : C
}.

(** LossAndGrad.evaluate_single_walker, loss_grad.py 70-94 (without the gradient). *)
Definition loss_and_grad (v : values) (loss_key : string) : est := fun prev =>
  bind (lookup prev loss_key) (fun l => Ok [("logpsi", v_logpsi v); ("loss", l)]).

Definition emits (s : stats) : est := fun _ => Ok s.
Definition when (b : bool) (name : string) (e : est) (d : list (string * est)) : list (string * est) :=
  if b then dict_set d name e else d.

(** make_estimators of molecule/workflow.py: [energy] is always_enable_energy or the
    configured switch. *)
Definition molecule_estimators (v : values) (energy ecp ph spin density : bool) : list (string * est) :=
  let d := [] in
  let d := when energy "potential" (emits [("energy:potential", v_potential v)]) d in
  let d := when (energy && negb ph) "kinetic" (emits [("energy:kinetic", v_kinetic v)]) d in
  let d := when (energy && ecp) "ecp" (emits [("energy:ecp", v_ecp v)]) d in
  let d := when (energy && ph) "ph" (emits [("energy:kinetic", v_ph_derivative v); ("energy:ph", v_ph_zero v)]) d in
  let d := when energy "total" (total_energy "total_energy" None) d in
  let d := when spin "spin" (emits [("spin:s2", v_spin v)]) d in
  when density "density" (emits []) d.

(** make_estimators of solid/workflow.py. *)
Definition solid_estimators (v : values) (energy ecp spin density : bool) : list (string * est) :=
  let d := [] in
  let d := when energy "potential" (emits [("energy:potential", v_potential v)]) d in
  let d := when energy "kinetic" (emits [("energy:kinetic", v_kinetic v)]) d in
  let d := when (energy && ecp) "ecp" (emits [("energy:ecp", v_ecp v)]) d in
  let d := when energy "total" (total_energy "total_energy" None) d in
  let d := when spin "spin" (emits [("spin:s2", v_spin v)]) d in
  when density "density" (emits []) d.

(** make_estimators of hall/workflow.py. *)
Definition hall_estimators (v : values) (lz_center lz_penalty l2_penalty : R)
  (energy density pair rdm : bool) : list (string * est) :=
  let d := [] in
  let d := when energy "kinetic"
             (emits [("energy:kinetic", v_kinetic v); ("angular_momentum_z", v_lz v);
                     ("angular_momentum_z_square", v_lz_square v); ("angular_momentum_square", v_l_square v)]) d in
  let d := when energy "potential" (emits [("energy:potential", v_potential v)]) d in
  let d := when energy "total" (total_energy "total_energy" None) d in
  let d := when (energy && (nonzero lz_penalty || nonzero l2_penalty)) "penalty"
             (penalized_loss lz_center lz_penalty l2_penalty) d in
  let d := when density "density" (emits []) d in
  let d := when pair "pair_correlation" (emits []) d in
  when rdm "one_rdm" (emits []) d.

(** The estimators of app/hydrogen_atom.py, lines 69-73. *)
Definition hydrogen_estimators (v : values) : list (string * est) :=
  [("kinetic", emits [("energy:kinetic", v_kinetic v)]);
   ("potential", emits [("energy:potential", v_potential v)]);
   ("total", total_energy "total_energy" None)].

(** The loss key of HallTrainWorkflow, hall/workflow.py 60-61, unless the user sets one. *)
Definition hall_loss_key (lz_penalty l2_penalty : R) : string :=
  if (nonzero lz_penalty || nonzero l2_penalty)%bool then "penalized_loss" else "total_energy".
(** LossAndGrad's default. *)
Definition default_loss_key : string := "total_energy".

(** configure_estimators then configure_loss_grads, and one evaluation. *)
Definition train_walker (v : values) (es : list (string * est)) (loss_key : string) : res stats :=
  evaluate_walker (dict_set es "grads" (loss_and_grad v loss_key)) [].
