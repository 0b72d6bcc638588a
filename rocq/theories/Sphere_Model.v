(** Model of /repo/src/jaqmc/geometry/sphere.py, of make_monopole_harm and OneRDM in
    /repo/src/jaqmc/app/hall/estimator/one_rdm.py and of penalized_loss.py in the same directory.

    Simplifications: exact arithmetic; one electron of one walker (the code does all of them elementwise);
    the random draws are arguments.  jnp.clip is min(max(x, lo), hi); jnp.sign(0) = 0. *)
From Coq Require Import Reals List Arith Lra Bool.
From Coquelicot Require Import Coquelicot.
From Verif Require Import Lin Geom_Model Det Wf_Model Hall_Model.
Import ListNotations.
Open Scope R_scope.

Definition clip (lo hi x : R) : R := Rmin (Rmax x lo) hi.
Definition sign (y : R) : R := if Rlt_dec 0 y then 1 else if Rlt_dec y 0 then -1 else 0.
(** _sphere_move, lines 12-54; [g] is the normal draw, [u] the uniform draw in [0, 1) *)
Definition sphere_move (x : R * R) (stddev g u : R) : R * R :=
  let theta' := atan (g * stddev) in
  let phi' := u * 2 * PI in
  let x' := sin theta' * cos phi' in let y' := sin theta' * sin phi' in let z' := cos theta' in
  (* rot_y, then rot_z *)
  let xr := cos (fst x) * x' + sin (fst x) * z' in let yr := y' in let zr := - sin (fst x) * x' + cos (fst x) * z' in
  let x2 := cos (snd x) * xr - sin (snd x) * yr in let y2 := sin (snd x) * xr + cos (snd x) * yr in let z2 := zr in
  let new_theta := acos (clip (-1) 1 z2) in
  let new_phi := sign y2 * acos (clip (-1) 1 (x2 / sin new_theta)) in
  (new_theta, new_phi).

(** one_rdm.py 39-77: make_monopole_harm(Q, Q, m) with Q = flux/2 and m = -Q + k, so ell - m = flux - k, ell + m = k,
    ell - q = 0 and ell + q = flux; s ranges over 0 .. flux - k and comb(0, s) is 0 unless s = 0 *)
Definition rdm_norm (flux k : nat) : R :=
  sqrt ((INR flux + 1) / (4 * PI) * (INR (fact (flux - k)) * INR (fact k)) / (INR (fact 0) * INR (fact flux))).
Definition rdm_orbital (flux k : nat) (p : R * R) : C :=
  let x := clip (-1 + / 10000) (1 - / 10000) (cos (fst p)) in
  let theta_part := rsum (map (fun s => (-1) ^ (flux - k - s) * comb 0 s * comb flux (flux - k - s)
                        * Rpower (1 - x) (INR flux / 2 - INR s - INR k / 2) * Rpower (1 + x) (INR s + INR k / 2)) (seq 0 (flux - k + 1))) in
  Cmult (RtoC (rdm_norm flux k / Rpower 2 (INR flux / 2) * theta_part)) (cexp (0, (- (INR flux / 2) + INR k) * snd p)).
(** _uniform_sample_sphere, 79-91, and hall/data.py 40-43: theta = arccos of a uniform draw in [-1, 1], phi uniform *)
Definition uniform_point (c p : R) : R * R := (acos c, p).
(** OneRDM.evaluate_single_walker, 126-170; [logpsi] is f_log_psi.  The ratio is exp(logpsi' - logpsi): 0 when only logpsi' is
    -inf, not finite (None) when logpsi is -inf or one of them is NaN; a sum with such a term is not finite. *)
Definition displaced (e : electrons) (a : nat) (r' : R * R) : electrons := fun j => if Nat.eqb j a then r' else e j.
Definition wf_ratio (o' o : complex_out) : option C :=
  match o, o' with CFin z, CFin z' => Some (cexp (Cminus z' z)) | CFin _, CNegInf => Some (RtoC 0) | _, _ => None end.
Definition one_rdm (n flux : nat) (logpsi : electrons -> complex_out) (e : electrons) (r' : R * R) (i j : nat) : option C :=
  option_map (Cmult (RtoC (4 * PI))) (cosum (map (fun a =>
    option_map (fun w => Cmult (Cmult w (rdm_orbital flux i (e a))) (Cconj (rdm_orbital flux j r'))) (wf_ratio (logpsi (displaced e a r')) (logpsi e))) (seq 0 n))).
(** finalize_stats, 184-198: diagonal and trace of the matrix of shape (flux + 1, flux + 1) *)
Definition rdm_trace (flux : nat) (m : nat -> nat -> option C) : option C := cosum (map (fun i => m i i) (seq 0 (flux + 1))).

(** PenalizedLoss.evaluate_single_walker, penalized_loss.py 38-62; a penalty of 0 is falsy *)
Definition penalized_loss (lz_center lz_penalty l2_penalty : R) (total_energy : C) (lz lz_sq l2 : R) : C :=
  let loss := if Req_EM_T lz_penalty 0 then total_energy
              else Cplus total_energy (RtoC (lz_penalty * (lz_sq - 2 * lz_center * lz + lz_center ^ 2))) in
  if Req_EM_T l2_penalty 0 then loss else Cplus loss (RtoC (l2_penalty * l2)).
