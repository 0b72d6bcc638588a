(** Model of jaqmc_legacy/loss: utils.py, vmc.py, spin_penalty.py, overlap_penalty.py,
    factory.py.

    Simplifications: exact real arithmetic on finite numbers ([big] is the largest float; a
    finite result never overflows); NaN and infinities are kept where the code handles them.
    A layout is the list of the devices' walker lists; psum and gather see all devices. One
    scalar parameter at a time (the code maps over the entries of the parameter tree).
    Derivatives (jax.jvp, jax.grad) are given per walker. [None] for a number is NaN. *)
From Coq Require Import Reals List Bool Arith ZArith String.
From Verif Require Import Est_Model.
Import ListNotations.
Open Scope R_scope.
Open Scope list_scope.

Inductive fl := Fin (x : R) | NaN | Inf (positive : bool).
(** jnp.isfinite and jnp.nan_to_num (library). *)
Definition isfinite (v : fl) : bool := match v with Fin _ => true | _ => false end.
Definition nan_to_num (big : R) (v : fl) : R :=
  match v with Fin x => x | NaN => 0 | Inf true => big | Inf false => - big end.
Definition fscale (x : R) (v : fl) : fl :=
  match v with
  | Fin y => Fin (x * y)
  | NaN => NaN
  | Inf p => match total_order_T x 0 with inleft (left _) => Inf (negb p) | inleft (right _) => NaN | inright _ => Inf p end
  end.
Definition fsub (a b : fl) : fl :=
  match a, b with
  | Fin x, Fin y => Fin (x - y)
  | Fin _, Inf p => Inf (negb p)
  | Inf p, Fin _ => Inf p
  | Inf p, Inf q => if Bool.eqb p q then NaN else Inf p
  | NaN, _ => NaN
  | _, NaN => NaN
  end.
Definition ltb (x y : R) : bool := if Rlt_dec x y then true else false.
Definition eqb (x y : R) : bool := if Req_EM_T x y then true else false.
Definition b2r (b : bool) : R := if b then 1 else 0.
(** x / n with n a count; the numerators are sums of as many terms: 0/0 is NaN. *)
Definition div (x n : R) : option R := if Req_EM_T n 0 then None else Some (x / n).

(** pmean_with_mask: loss/utils.py 23-28. *)
Definition pmean_with_mask (w : list (list (R * bool))) : option R :=
  div (rsum (map (fun s => rsum (map (fun x => fst x * b2r (snd x)) s)) w))
      (rsum (map (fun s => rsum (map (fun x => b2r (snd x)) s)) w)).
(** pmean_with_structure_mask: loss/utils.py 30-39, one entry of the tree: sums over axis 0. *)
Definition pmean_with_structure_mask (w : list (list (R * bool))) : option R :=
  div (rsum (map (fun s => rsum (map (fun x => fst x * b2r (snd x)) s)) w))
      (rsum (map (fun s => rsum (map (fun x => b2r (snd x)) s)) w)).

(** *** The energy loss, vmc.py *)
(** Partitioned local energies of one device: 98-108. reshape is row-major; -1 is the exact
    quotient. [split] are the keys of the walkers. *)
Fixpoint rows {A} (n k : nat) (l : list A) : list (list A) :=
  match n with O => [] | S n => firstn k l :: rows n k (skipn k l) end.
Definition local_energies {A B V} (el_partition : nat) (energy : A -> B -> V) (keys : list A) (data : list B) : list V :=
  let batch k x := map (fun p => energy (fst p) (snd p)) (combine k x) in
  if Nat.ltb 1 el_partition
  then let n := (List.length data / el_partition)%nat in
       List.concat (map (fun p => batch (fst p) (snd p)) (combine (rows el_partition n keys) (rows el_partition n data)))
  else batch keys data.

(** Mask of total_energy: 109-127. Comparisons with NaN are false. *)
Definition vmc_mask (big : R) (rm_outlier : bool) (width : R) (e : list (list fl)) : list (list (R * bool)) :=
  let w := map (map (fun v => (nan_to_num big v, isfinite v))) e in
  if rm_outlier && ltb 0 width then
    let none := map (map (fun x : R * bool => (fst x, false))) w in
    match pmean_with_mask w with
    | None => none
    | Some loss =>
        match pmean_with_mask (map (map (fun x => (Rabs (fst x - loss), snd x))) w) with
        | None => none
        | Some tv => map (map (fun x => (fst x, ltb (loss - width * tv) (fst x) && ltb (fst x) (loss + width * tv) && snd x))) w
        end
    end
  else w.
(** 129-134 *)
Definition vmc_loss (big : R) (rm : bool) (width : R) (e : list (list fl)) : option R := pmean_with_mask (vmc_mask big rm width e).
Definition vmc_variance (big : R) (rm : bool) (width : R) (e : list (list fl)) : option R :=
  match vmc_loss big rm width e with
  | None => None
  | Some loss => pmean_with_mask (map (map (fun x => ((fst x - loss) * (fst x - loss), snd x))) (vmc_mask big rm width e))
  end.

(** total_energy_jvp: 136-173, per device. A walker is its local energy (as in the auxiliary
    data), its mask and the derivative of its log |psi|. *)
Notation wk := (R * bool * R)%type.
Definition value (x : wk) : R := fst (fst x).
Definition kept (x : wk) : bool := snd (fst x).
Definition score (x : wk) : R := snd x.
Definition masked (f : wk -> R) (ws : list (list wk)) : list (list (R * bool)) := map (map (fun x => (f x, kept x))) ws.
Definition vmc_device_grads (clip_local_energy : R) (ws : list (list wk)) : list (option R) :=
  if ltb 0 clip_local_energy then
    let m := median (map value (List.concat ws)) in
    match pmean_with_mask (masked (fun x => Rabs (value x - m)) ws) with
    | None => map (fun _ => None) ws
    | Some tv =>
        let c x := clip (m - clip_local_energy * tv) (m + clip_local_energy * tv) (value x) in
        match pmean_with_mask (masked c ws) with
        | None => map (fun _ => None) ws
        | Some mu => map (fun s => div (rsum (map (fun x => score x * ((c x - mu) * b2r (kept x))) s)) (rsum (map (fun x => b2r (kept x)) s))) ws
        end
    end
  else
    match pmean_with_mask (masked value ws) with
    | None => map (fun _ => None) ws
    | Some loss => map (fun s => div (rsum (map (fun x => score x * ((value x - loss) * b2r (kept x))) s)) (INR (List.length s))) ws
    end.
(** The optimizer averages the devices' gradients (kfac_jax, optax wrappers: pmean). *)
Definition vmc_grad (clip_local_energy : R) (ws : list (list wk)) : option R := pmean (vmc_device_grads clip_local_energy ws).

(** *** Penalties: the helpers of spin_penalty.py and overlap_penalty.py are the same text *)
Inductive schema := Deviation | Percentile | OtherSchema.
(** jnp.percentile, linear interpolation (library). *)
Definition percentile (q : R) (l : list R) : R :=
  let s := sort l in
  let pos := q / 100 * INR (List.length l - 1) in
  let i := Z.to_nat (Int_part pos) in
  let lo := nth i s 0 in
  let hi := nth (i + 1) s lo in
  lo + (hi - lo) * (pos - INR i).
(** utils.pmean(jnp.mean(x)) *)
Definition device_mean (w : list (list R)) : R := rmean (map rmean w).

(** local_value_mask: spin_penalty.py 195-254, overlap_penalty.py 106-160. [None]: the mask is
    read without having been set (UnboundLocalError). *)
Definition local_value_mask (big : R) (rm_outlier : bool) (sch : schema) (width b0 b1 : R) (v : list (list fl)) : option (list (list (R * bool))) :=
  let x := map (map (nan_to_num big)) v in
  let mark (keep : R -> bool) := map (map (fun e => (nan_to_num big e, keep (nan_to_num big e) && isfinite e))) v in
  if rm_outlier then
    match sch with
    | Deviation =>
        if ltb 0 width then
          let m := device_mean x in
          let d := device_mean (map (map (fun y => Rabs (y - m))) x) in
          Some (mark (fun y => ltb (m - width * d) y && ltb y (m + width * d)))
        else None
    | Percentile =>
        if negb (eqb b0 0) && negb (eqb b1 100) then
          let lo := percentile b0 (List.concat x) in
          let hi := percentile b1 (List.concat x) in
          Some (mark (fun y => ltb lo y && ltb y hi))
        else None
    | OtherSchema => None
    end
  else Some (mark (fun _ => true)).

(** local_value_clip: spin_penalty.py 257-310, overlap_penalty.py 163-217. *)
Definition local_value_clip (sch : schema) (width b0 b1 : R) (x : list (list R)) : list (list R) :=
  match sch with
  | Deviation =>
      if ltb 0 width then
        let m := device_mean x in
        let d := device_mean (map (map (fun y => Rabs (y - m))) x) in
        map (map (clip (m - width * d) (m + width * d))) x
      else x
  | Percentile =>
      if eqb b0 0 && eqb b1 100 then x
      else let lo := percentile b0 (List.concat x) in
           let hi := percentile b1 (List.concat x) in
           map (map (clip lo hi)) x
  | OtherSchema => x
  end.

(** self_adjoint_estimator_grad: spin_penalty.py 313-348, overlap_penalty.py 220-255, one
    parameter. A walker: local value, mask, derivative of log |psi|. *)
Notation pw := (R * bool * fl)%type.
Definition estimator_grad (big : R) (ws : list (list pw)) : option R :=
  match pmean_with_mask (map (map fst) ws) with
  | None => None
  | Some m =>
      pmean_with_structure_mask (map (map (fun x : pw =>
        let g := fscale (fst (fst x) - m) (snd x) in (nan_to_num big g, isfinite g && snd (fst x)))) ws)
  end.

(** *** Spin, spin_penalty.py 502-673 *)
(** __init__: 504-531 *)
Definition idx_in_spin (up down : nat) : list nat * list nat := (seq 0 up, seq up down).
Definition sz_polar (up down : nat) : Z := if Nat.ltb down up then 0%Z else 1%Z.
(** A Python index into a list of two: -1 is the last. *)
Definition at2 {A} (z : Z) (l : A * A) : A := if Z.eqb z 0 then fst l else snd l.
Definition majority (up down : nat) : list nat := at2 (sz_polar up down) (idx_in_spin up down).
Definition minority (up down : nat) : list nat := at2 (sz_polar up down - 1) (idx_in_spin up down).
(** swap: 557-580 *)
Definition at_set (l : nat -> nat) (k v : nat) : nat -> nat := fun i => if Nat.eqb i k then v else l i.
Definition swap {P} (r : nat -> P) (idx1 idx2 : nat) : nat -> P :=
  let idx_list := at_set (fun i => i) idx1 idx2 in
  let idx_list := at_set idx_list idx2 idx1 in
  fun i => r (idx_list i).
(** side_permute_coord, side_permute_wavefn: 582-618. The network returns a sign and log |psi| (None is -inf,
    psi = 0). With every permuted log -inf the maximum is -inf, and -inf - -inf is NaN. *)
Fixpoint logs_max (l : list (option R)) : option R :=
  match l with
  | [] => None
  | Some x :: t => match logs_max t with Some y => Some (Rmax x y) | None => Some x end
  | None :: t => logs_max t
  end.
Definition oexp (a : option R) (m : R) : R := match a with Some x => exp (x - m) | None => 0 end.
Definition side_permute_wavefn {P} (up down : nat) (net : (nat -> P) -> R * option R) (r : nat -> P) (idx : nat) : option R :=
  match net r with
  | (_, None) => None
  | (s0, Some l0) =>
      let perm := map (fun a => net (swap r idx a)) (majority up down) in
      let logdet := map (fun p => option_map (fun l => l - l0) (snd p)) perm in
      let sign := map (fun p => - fst p * s0) perm in
      match logs_max logdet with
      | None => None
      | Some m => Some (rsum (map (fun p => oexp (fst p) m * snd p) (combine logdet sign)) * exp m + 1)
      end
  end.
Fixpoint osum (l : list (option R)) : option R :=
  match l with
  | [] => Some 0
  | Some x :: t => match osum t with Some y => Some (x + y) | None => None end
  | None :: _ => None
  end.
(** full_permute_wavefn: 620-641; spin_square: 643-653 *)
Definition full_permute_wavefn {P} (up down : nat) (net : (nat -> P) -> R * option R) (r : nat -> P) : option R :=
  osum (map (side_permute_wavefn up down net r) (minority up down)).
Definition sz_factor (up down : nat) : R := let s := Rabs (INR up - INR down) * (1 / 2) in s * (s + 1).
Definition spin_square {P} (up down : nat) (net : (nat -> P) -> R * option R) (r : nat -> P) : option R :=
  option_map (fun v => sz_factor up down + v) (full_permute_wavefn up down net r).

(** make_spin_penalty_helper: 154-183. [None]: no such schema. *)
Inductive spin_schema := Square | Plus | OtherSpin.
Definition minor_num (up down : nat) : nat := Nat.min up down.
Definition spin_penalty {P} (sch : spin_schema) (fix_idx : bool) (up down : nat) (net : (nat -> P) -> R * option R) : option ((nat -> P) -> nat -> option R) :=
  match sch with
  | Square => Some (fun r _ => full_permute_wavefn up down net r)
  | Plus => Some (fun r idx =>
      let i := if fix_idx then nth 0 (minority up down) 0%nat else idx in
      option_map (fun v => v * INR (minor_num up down)) (side_permute_wavefn up down net r i))
  | OtherSpin => None
  end.
(** fn_spin_penalty: 353-388. The swapped electron; [None]: no minority electron. *)
Definition swap_index (up down step : nat) : option nat :=
  if Nat.eqb (minor_num up down) 0 then None else nth_error (minority up down) (step mod minor_num up down).
Record spin_cfg := { rm_outlier : bool; outlier_schema : schema; outlier_width : R; outlier_b0 : R; outlier_b1 : R;
  clip_schema : schema; clip_width : R; clip_b0 : R; clip_b1 : R; weight : R }.
Definition spin_mask (big : R) (cfg : spin_cfg) (v : list (list fl)) : option (list (list (R * bool))) :=
  local_value_mask big (rm_outlier cfg) (outlier_schema cfg) (outlier_width cfg) (outlier_b0 cfg) (outlier_b1 cfg) v.
Definition spin_estimator (up down : nat) (w : list (list (R * bool))) : option R :=
  option_map (fun e => sz_factor up down + e) (pmean_with_mask w).

(** fn_spin_grad: 409-456 and spin_penalty_bwd / dummy_bwd: 458-473, 495-498, one parameter. A walker:
    local value and mask (auxiliary data), derivative of log |psi|, derivative of the local
    value. The weight decides whether there is a gradient (132-133, unless set by hand). *)
Notation sw := (R * bool * fl * fl)%type.
Definition spin_grad (big : R) (cfg : spin_cfg) (ws : list (list sw)) : option R :=
  if ltb 0 (weight cfg) then
    let clipped := local_value_clip (clip_schema cfg) (clip_width cfg) (clip_b0 cfg) (clip_b1 cfg) (map (map (fun x : sw => fst (fst (fst x)))) ws) in
    let part1 := estimator_grad big (map (fun p => map (fun q : R * sw => (fst q, snd (fst (fst (snd q))), snd (fst (snd q)))) (combine (fst p) (snd p))) (combine clipped ws)) in
    let part2 := pmean_with_structure_mask (map (map (fun x : sw => (nan_to_num big (snd x), isfinite (snd x) && snd (fst (fst x))))) ws) in
    match part1, part2, pmean_with_mask (map (map (fun x : sw => fst (fst x))) ws) with
    | Some x, Some y, Some e => Some (weight cfg * (2 * x + y) * e)
    | _, _, _ => None
    end
  else Some 0.

(** The value and the state returned: fn_loss_with_spin_penalty, 390-407. *)
Definition spin_loss (step : nat) : R * nat := (0, step).

(** *** Overlap, overlap_penalty.py *)
(** div_in_dist: 288-313. A walker: (sign, log |psi_1|), (sign, log |psi_2|). *)
Notation wf := (R * fl)%type.
Fixpoint list_max (l : list R) : R := match l with [] => 0 | [x] => x | x :: t => Rmax x (list_max t) end.
Definition div_in_dist (big b0 b1 : R) (ws : list (list (wf * wf))) : option R * list (list (R * bool)) :=
  let diff := map (map (fun p : wf * wf => fsub (snd (fst p)) (snd (snd p)))) ws in
  let mask := map (map isfinite) diff in
  let log_diff := map (map (fun d => nan_to_num big d * b2r (isfinite d))) diff in
  let log_diff := local_value_clip Percentile 0 b0 b1 log_diff in
  let max_val := list_max (map list_max log_diff) in
  let res := map (fun p => map (fun q : R * (wf * wf) => fst (fst (snd q)) * fst (snd (snd q)) * exp (fst q - max_val)) (combine (fst p) (snd p))) (combine log_diff ws) in
  let with_mask (f : R -> R) := map (fun p => map (fun q : R * bool => (f (fst q), snd q)) (combine (fst p) (snd p))) (combine res mask) in
  (option_map (fun m => m * exp max_val) (pmean_with_mask (with_mask (fun x => x))), with_mask (fun x => x * exp max_val)).

(** fn_overlap_penalty: 264-336. A target: the walkers of the target, with (psi, psi_t), and
    the current walkers, with (psi_t, psi). [overlap], [mean_fixed_dist], [div_current_dist]. *)
Definition overlap_aux (big b0 b1 : R) (t : list (list (wf * wf)) * list (list (wf * wf))) : option R * option R * list (list (R * bool)) :=
  let fixed := fst (div_in_dist big b0 b1 (fst t)) in
  let cur := div_in_dist big b0 b1 (snd t) in
  (nmap2 Rmult fixed (fst cur), fixed, snd cur).
(** fn_overlap_grad: 359-375, one parameter; [scores] are the derivatives of log |psi| at the
    current walkers. [None]: divs[0] of an empty list (IndexError). *)
Definition one_overlap_grad (big : R) (scores : list (list fl)) (aux : option R * option R * list (list (R * bool))) (w : R) : option R :=
  let g := estimator_grad big (map (fun p => combine (fst p) (snd p)) (combine (snd aux) scores)) in
  nmap2 (fun m g => w * m * g) (snd (fst aux)) g.
Fixpoint overlap_rest (big : R) (scores : list (list fl)) (aux : list (option R * option R * list (list (R * bool)))) (w : list R) (acc : option R) : option R :=
  match aux, w with
  | a :: aux, x :: w => overlap_rest big scores aux w (nmap2 Rplus acc (one_overlap_grad big scores a x))
  | _, _ => acc
  end.
Definition overlap_grad (big : R) (scores : list (list fl)) (aux : list (option R * option R * list (list (R * bool)))) (w : list R) : option (option R) :=
  match aux, w with
  | a :: aux, x :: w => Some (overlap_rest big scores aux w (one_overlap_grad big scores a x))
  | _, _ => None
  end.

(** *** The factory, factory.py *)
Section Factory.
Context {K D St Aux : Type}.
Variable split : K -> K * K.                      (* jax.random.split(key): 126 *)
(** A component: its identifier and its loss (params and walkers together in [D]). *)
Definition comp := (string * (D -> option St -> K -> R * (option St * Aux)))%type.
(** make_loss, component list: 102-114 *)
Definition all_components (vmc spin overlap : D -> option St -> K -> R * (option St * Aux)) (with_spin with_overlap : bool) : list comp :=
  [("vmc"%string, vmc)] ++ (if with_spin then [("spin"%string, spin)] else []) ++ (if with_overlap then [("overlap"%string, overlap)] else []).
(** total_loss: 116-131. The results are read through the attribute names, None by default. *)
Fixpoint run_components (cs : list comp) (d : D) (st : string -> option St) (key : K) (acc : R) : R * list (string * (option St * Aux)) :=
  match cs with
  | [] => (acc, [])
  | (name, f) :: cs =>
      let k := split key in
      let out := f d (st name) (snd k) in
      let rest := run_components cs d st (fst k) (acc + fst out) in
      (fst rest, (name, snd out) :: snd rest)
  end.
Definition find_name (name : string) (l : list (string * (option St * Aux))) : option (option St * Aux) :=
  option_map snd (find (fun p => String.eqb (fst p) name) l).
Definition total_loss (cs : list comp) (d : D) (st : string -> option St) (key : K) : R * ((string -> option St) * (string -> option Aux)) :=
  let out := run_components cs d st key 0 in
  (fst out, (fun name => match find_name name (snd out) with Some (s, _) => s | None => None end,
             fun name => option_map snd (find_name name (snd out)))).
(** _get_relevant_kwargs: 134-144 *)
Definition relevant_kwargs {V : Type} (all : list (string * V)) (args : list string) : list (string * V) :=
  filter (fun kv => existsb (String.eqb (fst kv)) args) all.
End Factory.
