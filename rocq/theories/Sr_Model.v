(** Model of the stochastic-reconfiguration optimizer, /repo/src/jaqmc/optimizer/sr/jasr.py:
    update_fn 352-509, calc_gram_matrix 514-567, calc_gram_matrix_chunked 570-638,
    lift_null_space 641-664, power_iteration 667-685, estimate_required_damping 688-704,
    scale_by_constrained_norm 707-749, normalize_masked 813-838, active_leaf_indices 940-955.

    Simplifications: exact real arithmetic (no dtype or precision effects); parameters are one
    flat vector (ravel_pytree); a matrix is a function of its indices.  The score matrix is given
    per device: [score d l j] is row l, column j on device d.  Collectives: psum is a sum over
    devices, all_gather (tiled) puts row l of device d at global row d * rows + l, pscatter is
    its inverse, all_to_all (split 1, concat 0, tiled) gives device e the e-th block of columns
    of every row.  The random start vector of the power iteration is a parameter. *)
From Coq Require Import Reals List Arith Bool.
From Verif Require Import Lin.
Import ListNotations.
Open Scope R_scope.
Local Notation "a =? b" := (Nat.eqb a b).
Local Notation "a <? b" := (Nat.ltb a b).
Local Notation "a <=? b" := (Nat.leb a b).

Definition mv (n : nat) (m : mat) (v : vec) : vec := fun i => sum n (fun j => m i j * v j).
Fixpoint rmax (n : nat) (f : nat -> R) : R := match n with O => 0 | S k => Rmax (rmax k f) (f k) end.

(** ** Gram matrix *)
Section Gram.
Variables (devices rows params : nat). (* rows per device *)
Variable score : nat -> nat -> nat -> R.
Variable scale : vec.
(** 537-543 and 588-590 *)
Definition row_factor (d l : nat) : R := Rmax (rmax params (fun j => Rabs (score d l j * sqrt (scale j)))) (1 / 10000).
(** 982-986 pad_to_multiple: the padded width *)
Definition padded (width : nat) : nat := (width + (devices - width mod devices) mod devices)%nat.
(** 545-557 and 610-623: reshard [width] columns, multiply locally, add over the devices *)
Definition gram_of_block (width : nat) (block : nat -> nat -> nat -> R) (r q : nat) : R :=
  let w := (padded width / devices)%nat in
  let pad := fun d l j => if j <? width then block d l j else 0 in
  let resharded := fun e r c => pad (r / rows)%nat (r mod rows)%nat (e * w + c)%nat in
  sum devices (fun e => sum w (fun c => resharded e r c * resharded e q c)).
(** 559-567 and 630-638 *)
Definition finish (gram : mat) : mat :=
  let factor := fun r => row_factor (r / rows)%nat (r mod rows)%nat in
  let g := fun r q => gram r q * (factor r * factor q) in
  fun r q => (g r q + g q r) / 2.
(** 536-567 *)
Definition gram_full : mat :=
  finish (gram_of_block params (fun d l j => score d l j * sqrt (scale j) / row_factor d l)).
(** 570-638 *)
Definition gram_chunked (num_chunks : nat) : mat :=
  let chunk_size := ((params + num_chunks - 1) / num_chunks)%nat in
  let max_start := (params - chunk_size)%nat in
  let chunk := fun id d l c =>
    let raw_start := (id * chunk_size)%nat in
    let start := Nat.min raw_start max_start in
    let valid := (raw_start <=? start + c) && (start + c <? params) in
    score d l (start + c)%nat * sqrt (scale (start + c)%nat) * (if valid then 1 else 0) / row_factor d l in
  finish (fun r q => sum num_chunks (fun id => gram_of_block chunk_size (chunk id) r q)).
(** 527-535 *)
Definition calc_gram (num_chunks : option nat) : mat :=
  match num_chunks with None => gram_full | Some k => gram_chunked k end.
End Gram.

(** 641-664; [size] is the number of rows of the Gram matrix *)
Definition lift_null_space (gram : mat) (size n_batch n_device : nat) : mat :=
  let n_local := (n_batch / n_device)%nat in
  let null_rank := (size / n_batch)%nat in
  let base := fun r c => 1 - INR ((r + c) mod null_rank) in
  let null_basis := fun r i => base r (i / n_local)%nat in
  let mean_vec := fun r i => null_basis r i / sqrt (INR n_batch) in
  let shift := fun i j => sum null_rank (fun r => null_basis r i * null_basis r j) / INR n_batch in
  let mean_oneside := fun i j => sum null_rank (fun r => sum size (fun k => gram i k * mean_vec r k) * mean_vec r j) in
  let mean_all := fun i j => sum null_rank (fun r => mean_vec r i * sum size (fun k => mean_vec r k * mean_oneside k j)) in
  fun i j => gram i j - mean_oneside i j - mean_oneside j i + mean_all i j + shift i j.

(** ** Damping *)
(** 667-685 *)
Definition power_iteration (n : nat) (a : mat) (start : vec) : R :=
  let normalise := fun v : vec => fun i => v i / norm n v in
  let v := Nat.iter 10 (fun v => normalise (mv n a v)) (normalise start) in
  dot n v (mv n a v).
(** 688-704; the check target > 1 is made by the caller's hypotheses *)
Definition required_damping (n : nat) (gram : mat) (start : vec) (target : R) : R :=
  Rmax (power_iteration n gram start / (target - 1)) 0.

Inductive gamma_rule := Standard (* None *) | Sqrt (* 'sqrt' *) | Gamma (f : nat -> R).
(** 328-331 *)
Definition limit_gamma (eps gamma lam : R) : R :=
  let b1 := 1 in let b2 := 1 / Rmax lam eps in
  Rmin (Rmax gamma (Rmin b1 b2)) (Rmax b1 b2).
(** 333-342 *)
Definition get_gamma (eps : R) (rule : gamma_rule) (step : nat) (lam : R) : R :=
  limit_gamma eps (match rule with Standard => 1 / Rmax lam eps | Sqrt => / sqrt (Rmax lam eps) | Gamma f => f step end) lam.

(** jsp.linalg.cho_factor / cho_solve, 485-490: elimination on a symmetric positive-definite
    matrix (in exact arithmetic Cholesky and this elimination give the same solution) *)
Fixpoint cho_solve (n : nat) (f : mat) (b : vec) : vec :=
  match n with
  | O => fun _ => 0
  | S k =>
      let p := f k k in
      let x := cho_solve k (fun i j => f i j - f i k * f k j / p) (fun i => b i - f i k * b k / p) in
      fun i => if i =? k then (b k - sum k (fun j => f k j * x j)) / p else x i
  end.

(** ** The update *)
Record settings := {
  damping : nat -> R; max_cond : option R; start : vec; robust : gamma_rule;
  spring : option (nat -> R); march : option (nat -> R); var_mode : bool;
  eps : R; clip : option R; chunks : option nat }.
Record state := { counter : nat; prev_delta : vec; acc_var : vec }.
(** per-sample scores of one batch, sharded over devices; [im] is zero unless [cplx] *)
Record batch := {
  devices : nat; n_local : nat; n_params : nat;
  re : nat -> nat -> nat -> R; im : nat -> nat -> nat -> R; cplx : bool;
  active : option (list nat) }.
(** 970-979 *)
Definition get_idx (idx : option (list nat)) (x : vec) : vec := match idx with None => x | Some l => fun j => x (nth j l 0%nat) end.
Fixpoint position (a : nat) (l : list nat) : option nat :=
  match l with [] => None | x :: l' => if x =? a then Some 0%nat else option_map S (position a l') end.
Definition set_idx (idx : option (list nat)) (x v : vec) : vec :=
  match idx with None => v | Some l => fun a => match position a l with Some j => v j | None => x a end end.
Definition width (idx : option (list nat)) (n : nat) : nat := match idx with None => n | Some l => length l end.
(** 940-955 *)
Fixpoint leaf_indices (offset : nat) (sizes : list nat) (mask : list bool) : list nat :=
  match sizes, mask with
  | s :: sizes', m :: mask' => (if m then seq offset s else []) ++ leaf_indices (offset + s) sizes' mask'
  | _, _ => []
  end.
Definition active_leaf_indices (sizes : list nat) (mask : list bool) : list nat := leaf_indices 0 sizes mask.
(** 958-967: ravel of the selected leaves *)
Fixpoint ravel_selected {A} (leaves : list (list A)) (mask : list bool) : list A :=
  match leaves, mask with l :: leaves', m :: mask' => (if m then l else []) ++ ravel_selected leaves' mask' | _, _ => [] end.

Section Update.
Variable cfg : settings.
Variable b : batch.
Definition cols : nat := width (active b) (n_params b).
Definition n_batch : nat := (n_local b * devices b)%nat.
Definition sel (x : nat -> nat -> nat -> R) (d i : nat) : vec := get_idx (active b) (x d i).
(** 406-410 *)
Definition rescale (d i : nat) : R :=
  match clip cfg with
  | None => 1
  | Some c =>
      let m := sum cols (fun j => sqrt (sel (re b) d i j * sel (re b) d i j + (if cplx b then sel (im b) d i j * sel (im b) d i j else 0))) / INR cols in
      if Req_EM_T m 0 then 1 else Rmin (Rmax (c / m) 0) 1
  end.
(** 411-425: local means, then the mean over the devices *)
Definition mean_score (x : nat -> nat -> nat -> R) (j : nat) : R :=
  sum (devices b) (fun d => sum (n_local b) (fun i => rescale d i * sel x d i j) / INR (n_local b)) / INR (devices b).
(** 426-427 *)
Definition centred (x : nat -> nat -> nat -> R) (d i j : nat) : R := (rescale d i * sel x d i j - mean_score x j) / sqrt (INR n_batch).
(** 449-450: rows of the imaginary parts follow the real ones on every device *)
Definition rows : nat := if cplx b then (n_local b + n_local b)%nat else n_local b.
Definition score (d l j : nat) : R := if l <? n_local b then centred (re b) d l j else centred (im b) d (l - n_local b)%nat j.
Definition total_rows : nat := (devices b * rows)%nat.
Definition global (x : nat -> nat -> R) : vec := fun r => x (r / rows)%nat (r mod rows)%nat.

(** 436-443, normalize_masked 813-838 *)
Definition score_var (j : nat) : R :=
  sum (devices b) (fun d => sum (n_local b) (fun i => centred (re b) d i j * centred (re b) d i j + (if cplx b then centred (im b) d i j * centred (im b) d i j else 0))).
Definition var_mask (j : nat) : bool := if Rlt_dec (eps cfg) (score_var j) then true else false.
Definition normalised_var (j : nat) : R :=
  let masked_sum := sum cols (fun k => if var_mask k then score_var k else 0) in
  let count := sum cols (fun k => if var_mask k then 1 else 0) in
  let m := if Rlt_dec 0 count then masked_sum / count else 1 in
  let m' := if Rlt_dec 0 m then m else 1 in
  if var_mask j then score_var j / m' else score_var j.
Definition march_var_update (beta : R) (acc : vec) : vec :=
  let old := get_idx (active b) acc in
  set_idx (active b) acc (fun j => if var_mask j then beta * old j + (1 - beta) * normalised_var j else old j).

(** 430-432 *)
Definition momentum (st : state) : vec := match spring cfg with Some mu => fun a => mu (counter st) * prev_delta st a | None => fun _ => 0 end.
(** 434-446 *)
Definition current_var (st : state) : vec :=
  match march cfg with Some beta => if var_mode cfg then march_var_update (beta (counter st)) (acc_var st) else acc_var st | None => acc_var st end.
Definition scaling (st : state) : vec := match march cfg with Some _ => fun a => / sqrt (current_var st a + eps cfg) | None => fun _ => 1 end.
(** 467-475 *)
Definition lifted (st : state) : mat :=
  lift_null_space (calc_gram (devices b) rows cols score (get_idx (active b) (scaling st)) (chunks cfg)) total_rows n_batch (devices b).
(** 478-480 *)
Definition lambda (st : state) : R :=
  let lam := damping cfg (counter st) in
  match max_cond cfg with Some t => Rmax lam (required_damping total_rows (lifted st) (start cfg) t) | None => lam end.
Definition gamma (st : state) : R := get_gamma (eps cfg) (robust cfg) (counter st) (lambda st).
(** 453-509 *)
Definition update (g : vec) (st : state) : vec * state :=
  let lam := lambda st in let gam := gamma st in
  let scaled_grad := fun a => scaling st a * g a in
  let scaled_grad_active := get_idx (active b) scaled_grad in
  let momentum_active := get_idx (active b) (momentum st) in
  let u_g := global (fun d l => sum cols (fun j => score d l j * scaled_grad_active j)) in
  let u_p := match spring cfg with Some _ => global (fun d l => sum cols (fun j => score d l j * momentum_active j)) | None => fun _ => 0 end in
  let f := fun i j => lifted st i j + lam * delta i j in
  let w := cho_solve total_rows f u_g in
  let z := cho_solve total_rows f (fun r => gam * u_g r + u_p r - (1 - gam * lam) * w r) in
  let otz := fun j => sum (devices b) (fun d => sum rows (fun l => score d l j * z (d * rows + l)%nat)) in
  let delta_active := fun j => gam * scaled_grad_active j + momentum_active j - get_idx (active b) (scaling st) j * otz j in
  let d := set_idx (active b) (fun a => gam * scaled_grad a + momentum st a) delta_active in
  let acc := match march cfg with
             | Some beta => if var_mode cfg then current_var st
                            else fun a => beta (counter st) * current_var st a + (1 - beta (counter st)) * ((d a - prev_delta st a) * (d a - prev_delta st a))
             | None => current_var st
             end in
  (d, {| counter := S (counter st); prev_delta := d; acc_var := acc |}).
End Update.
(** 346-350 *)
Definition init : state := {| counter := 0; prev_delta := fun _ => 0; acc_var := fun _ => 1 |}.

(** ** Norm constraint, 707-749 *)
Definition constrained_factor (n : nat) (lr : R) (max_norm : option R) (eps : R) (u : vec) : R :=
  match max_norm with None => lr | Some c => Rmin lr (c / (norm n u + eps)) end.
Definition constrain (n : nat) (lr : R) (max_norm : option R) (eps : R) (u : vec) : vec := fun i => constrained_factor n lr max_norm eps u * u i.
(** robust_sr 183-219: max_norm 'fixed', then the optax.scale(-1) stage *)
Definition large_rate : R := 100000000.
Inductive norm_rule := Unlimited | Limit (c : nat -> R) | Fixed.
Definition robust_sr_step (n : nat) (lr : nat -> R) (rule : norm_rule) (eps : R) (count : nat) (u : vec) : vec :=
  let v := match rule with
           | Fixed => constrain n large_rate (Some (lr count)) eps u
           | Limit c => constrain n (lr count) (Some (c count)) eps u
           | Unlimited => constrain n (lr count) None eps u
           end in
  fun i => -1 * v i.
