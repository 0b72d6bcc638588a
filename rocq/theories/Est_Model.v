(** Model of the statistics code: /repo/src/jaqmc/estimator/base.py (mean_reduce 27-53),
    estimator/total_energy.py (TotalEnergy 36-60), estimator/loss_grad.py (LossAndGrad.reduce
    96-111, finalize_stats 113-128), utils/clip.py (11-68), estimator/histogram.py
    (evaluate_batch_walkers 90-109, finalize_state 120-131).

    Simplifications: exact real arithmetic instead of floats (NaN is kept, as [None]; no
    infinities); one scalar component of each quantity at a time (the code maps over array
    entries); a device layout is the list of the shards' walker lists, and [pmean] /
    [all_gather] see all shards. *)
From Coq Require Import Reals List Bool Arith String Lra Lia.
From Verif Require Import Common.
Import ListNotations.
Open Scope R_scope.
Open Scope list_scope.

(** A float: a number or NaN. *)
Definition nv := option R.
Definition valid (l : list nv) : list R := flat_map (fun x => match x with Some r => [r] | None => [] end) l.
Definition rsum (l : list R) : R := fold_right Rplus 0 l.
Definition rmean (l : list R) : R := rsum l / INR (List.length l).

(** jnp.nanmean(x, axis=0): NaN of an empty selection. *)
Definition nanmean (l : list nv) : nv := match valid l with [] => None | v => Some (rmean v) end.
(** parallel_jax.pmean: the plain mean over devices; NaN if any is NaN. *)
Definition pmean (l : list nv) : nv :=
  if forallb (fun x => match x with Some _ => true | None => false end) l then Some (rmean (valid l)) else None.
Definition nmap2 (f : R -> R -> R) (a b : nv) : nv := match a, b with Some x, Some y => Some (f x y) | _, _ => None end.

(** base.py lines 43-45 *)
Definition reduce_mean (layout : list (list nv)) : nv := pmean (map nanmean layout).
(** base.py line 48 *)
Definition reduce_var (layout : list (list nv)) : nv :=
  nmap2 Rminus (pmean (map (fun shard => nanmean (map (option_map (fun x => x * x)) shard)) layout))
               (option_map (fun m => m * m) (reduce_mean layout)).
(** mean_reduce, base.py lines 27-53 *)
Definition mean_reduce (stats : list (string * list (list nv))) (include_variance : bool) : list (string * nv) :=
  let means := map (fun kv => (fst kv, reduce_mean (snd kv))) stats in
  if include_variance
  then dict_update means (map (fun kv => ((fst kv ++ "_var")%string, reduce_var (snd kv))) stats)
  else means.

(** *** TotalEnergy, total_energy.py lines 36-60, one walker.  A statistic of one walker is
    a scalar or not ([jnp.isscalar]). *)
Inductive wstat := Scalar (x : R) | NonScalar.
Fixpoint add_up (stats : list (string * wstat)) (keys : list string) (total : R) : res R :=
  match keys with
  | [] => Ok total
  | k :: rest =>
      match dict_get stats k with
      | None => Raise KeyError
      | Some NonScalar => Raise ValueError
      | Some (Scalar x) => add_up stats rest (total + x)
      end
  end.
Definition total_energy (components : option (list string)) (prev : list (string * wstat)) : res R :=
  let keys := match components with
              | Some ks => ks
              | None => filter (String.prefix "energy:") (map fst prev)
              end in
  add_up prev keys 0.

(** *** Clipping, utils/clip.py.  Real arrays; complex ones are clipped part by part
    (lines 19-20, 36-37). *)
Fixpoint insert (x : R) (l : list R) : list R :=
  match l with
  | [] => [x]
  | y :: l' => if Rle_dec x y then x :: l else y :: insert x l'
  end.
Definition sort (l : list R) : list R := fold_right insert [] l.
(** jnp.nanquantile(x, k/4) of the valid entries, linear interpolation. *)
Definition quantile4 (k : nat) (l : list R) : R :=
  let s := sort l in
  let h := (k * (List.length l - 1))%nat in
  let lo := nth (h / 4) s 0 in
  let hi := nth (h / 4 + 1) s lo in
  lo + (hi - lo) * (INR (h mod 4) / 4).
Definition median (l : list R) : R := quantile4 2 l.
(** jnp.clip *)
Definition clip (lo hi x : R) : R := Rmin (Rmax x lo) hi.

(** The window, from the values gathered from all devices. *)
Definition iqr_window (scale : R) (all : list R) : R * R :=
  let q1 := quantile4 1 all in let q3 := quantile4 3 all in
  (q1 - scale * (q3 - q1), q3 + scale * (q3 - q1)).
Definition mad_window (scale : R) (all : list R) : R * R :=
  let m := median all in
  let d := median (map (fun x => Rabs (x - m)) all) in
  (m - scale * d, m + scale * d).

Inductive clip_method := Iqr | Mad | NoClip.
(** clip_observable on one shard; [all] are the shards of all devices.  With no valid value
    anywhere the window is NaN, and so is every value. *)
Definition clip_shard (method : clip_method) (scale : R) (all : list (list nv)) (shard : list nv) : list nv :=
  match method with
  | NoClip => shard
  | Iqr => let w := iqr_window scale (valid (List.concat all)) in map (option_map (clip (fst w) (snd w))) shard
  | Mad => let w := mad_window scale (valid (List.concat all)) in map (option_map (clip (fst w) (snd w))) shard
  end.
Definition clip_layout (method : clip_method) (scale : R) (layout : list (list nv)) : list (list nv) :=
  map (clip_shard method scale layout) layout.

(** The name of the method, lines 62-68. *)
Definition method_named (s : string) : res clip_method :=
  if String.eqb s "iqr" then Ok Iqr else if String.eqb s "mad" then Ok Mad
  else if String.eqb s "none" then Ok NoClip else Raise ValueError.

(** *** LossAndGrad for one parameter.  A walker: derivative of log psi and local energy,
    both complex.  No NaN here (nanmean is then the mean). *)
Record cplx := mkC { re : R; im : R }.
Record sample := { dlog : cplx; energy : cplx }.
Definition csum (l : list cplx) : cplx := mkC (rsum (map re l)) (rsum (map im l)).
Definition cmean (l : list cplx) : cplx := mkC (rmean (map re l)) (rmean (map im l)).

Definition to_nv (l : list (list R)) : list (list nv) := map (map Some) l.
(** clipped energies (lines 97-99), part by part, all shards *)
Definition clip_parts (method : clip_method) (scale : R) (layout : list (list R)) : list (list R) :=
  map valid (clip_layout method scale (to_nv layout)).
Definition zip_c (a b : list R) : list cplx := map (fun p => mkC (fst p) (snd p)) (combine a b).
Definition clipped (method : clip_method) (scale : R) (layout : list (list sample)) : list (list cplx) :=
  map (fun p => zip_c (fst p) (snd p))
    (combine (clip_parts method scale (map (map (fun s => re (energy s))) layout))
             (clip_parts method scale (map (map (fun s => im (energy s))) layout))).

(** pmean of the shard means (mean_reduce) *)
Definition dev_mean (layout : list (list R)) : R := rmean (map rmean layout).

Record step_stats := { s_gl : R; s_loss : cplx; s_clipped : cplx; s_grad : cplx }.
(** reduce, lines 96-111 *)
Definition reduce_step (method : clip_method) (scale : R) (layout : list (list sample)) : step_stats :=
  let cl := clipped method scale layout in
  {| s_gl := dev_mean (map (fun p => map (fun q => re (dlog (fst q)) * re (snd q) + im (dlog (fst q)) * im (snd q))
                                        (combine (fst p) (snd p))) (combine layout cl));
     s_loss := mkC (dev_mean (map (map (fun s => re (energy s))) layout)) (dev_mean (map (map (fun s => im (energy s))) layout));
     s_clipped := mkC (dev_mean (map (map re) cl)) (dev_mean (map (map im) cl));
     s_grad := mkC (dev_mean (map (map (fun s => re (dlog s))) layout)) (dev_mean (map (map (fun s => im (dlog s))) layout)) |}.
(** finalize_stats, lines 113-128: means over the steps, then
    2 * (grad_logpsi_and_loss + real(-clipped_loss * grad_logpsi)). *)
Definition finalize_grad (steps : list step_stats) : R :=
  let gl := rmean (map s_gl steps) in
  let c := cmean (map s_clipped steps) in
  let g := cmean (map s_grad steps) in
  2 * (gl + - (re c * re g - im c * im g)).
Definition finalize_loss (steps : list step_stats) : cplx := cmean (map s_loss steps).

(** *** Histograms.  [edges]: the bin edges of one dimension (bins + 1 of them).
    jnp.histogramdd: the number of edges at or below the value is the bin number plus one;
    the last edge belongs to the last bin; everything else is dropped. *)
Definition bin_of (edges : list R) (x : nv) : option nat :=
  match x with
  | None => None
  | Some v =>
      let below := List.length (filter (fun e => if Rle_dec e v then true else false) edges) in
      let idx := if Req_EM_T v (last edges 0) then (below - 1)%nat else below in
      if (Nat.leb 1 idx && Nat.ltb idx (List.length edges))%bool then Some (idx - 1)%nat else None
  end.
Fixpoint cell_of (dims : list (list R)) (v : list nv) : option (list nat) :=
  match dims, v with
  | [], [] => Some []
  | e :: dims', x :: v' =>
      match bin_of e x, cell_of dims' v' with Some i, Some c => Some (i :: c) | _, _ => None end
  | _, _ => None
  end.
Definition counts (dims : list (list R)) (values : list (list nv)) (cell : list nat) : R :=
  INR (List.length (filter (fun v => match cell_of dims v with
                                     | Some c => if list_eq_dec Nat.eq_dec c cell then true else false
                                     | None => false end) values)).
(** One device's state: histogram and compensation. *)
Record hist := { h_sum : list nat -> R; h_comp : list nat -> R }.
Definition hist_init : hist := {| h_sum := fun _ => 0; h_comp := fun _ => 0 |}.
(** evaluate_batch_walkers, lines 99-109.  [rnd] is the rounding of the addition to the
    running sum (the identity: exact arithmetic); the subtractions are taken as exact. *)
Definition hist_step (rnd : R -> R) (dims : list (list R)) (s : hist) (values : list (list nv)) : hist :=
  let adjusted cell := counts dims values cell - h_comp s cell in
  let new_sum cell := rnd (h_sum s cell + adjusted cell) in
  let new_comp cell := (new_sum cell - h_sum s cell) - adjusted cell in
  {| h_sum := new_sum; h_comp := new_comp |}.
(** All devices: a step is the list of the devices' values. *)
Definition hist_run (rnd : R -> R) (dims : list (list R)) (ss : list hist) (stream : list (list (list (list nv)))) : list hist :=
  fold_left (fun ss step => map (fun p => hist_step rnd dims (fst p) (snd p)) (combine ss step)) stream ss.
(** finalize_state, lines 120-131 *)
Definition hist_final (ss : list hist) (cell : list nat) : R := rsum (map (fun s => h_sum s cell) ss).
