(** KFAC support (/repo/src/jaqmc/optimizer/kfac): complex_support.py, curvature_blocks.py, tag_registration.py and
    kfac.py, over the reals. What is taken from kfac_jax and JAX is said at each definition: WeightedMovingAverage,
    the Kronecker structure of a dense block, compatible_sum, OptaxPreconditioner.apply, jax.vjp, dot_general. *)
From Coq Require Import Reals List Arith Lra ZArith String Lia.
From Coquelicot Require Import Coquelicot.
From Verif Require Import Lin Shape.
Import ListNotations.
Open Scope R_scope.

(** Row-major arrays. *)
Record array (T : Type) := { shape : list nat; buf : nat -> T }.
Arguments shape {T}. Arguments buf {T}.
Definition entry {T} (a : array T) (idx : list nat) : T := buf a (ravel (shape a) idx).

(** ** Layer patterns *)
(** jax.lax.dot_general without batch dimensions: free axes keep their order, left ones first. [place] builds the
    index of an operand of rank [nd] from the contracted index [c] (axes [cs]) and the free index [f]. *)
Fixpoint position (k : nat) (l : list nat) : option nat :=
  match l with [] => None | a :: l' => if Nat.eqb a k then Some 0%nat else option_map S (position k l') end.
Definition free_axes (nd : nat) (cs : list nat) : list nat := filter (fun k => match position k cs with None => true | _ => false end) (seq 0 nd).
Definition place (nd : nat) (cs c f : list nat) : list nat :=
  map (fun k => match position k cs with
                | Some p => nth p c 0%nat
                | None => match position k (free_axes nd cs) with Some q => nth q f 0%nat | None => 0%nat end
                end) (seq 0 nd).
Definition take_axes (s : list nat) (axes : list nat) : list nat := map (fun a => nth a s 0%nat) axes.
Definition dot_general (x w : array R) (cx cw : list nat) : array R :=
  let fx := free_axes (List.length (shape x)) cx in
  let fw := free_axes (List.length (shape w)) cw in
  let out := (take_axes (shape x) fx ++ take_axes (shape w) fw)%list in
  let cs := take_axes (shape x) cx in
  {| shape := out;
     buf := fun k => let idx := unravel out k in
       let ix := firstn (List.length fx) idx in let iw := skipn (List.length fx) idx in
       sum (size cs) (fun i => let c := unravel cs i in
         entry x (place (List.length (shape x)) cx c ix) * entry w (place (List.length (shape w)) cw c iw)) |}.
(** tag_registration.py 22-54: the contracted axes; the bias is reshaped to (1, *b.shape) and broadcast from the
    right. [None] is "Unsupported parameters list" *)
Definition flax_dense (x : array R) (params : list (array R)) (axes : nat) : option (array R) :=
  let nd := List.length (shape x) in
  let dims := map (fun i => nd - 1 - i)%nat (rev (seq 0 axes)) in
  match params with
  | [w; b] => let y := dot_general x w dims (seq 0 axes) in
      Some {| shape := shape y; buf := fun k => buf y k + buf b (k mod size (shape b))%nat |}
  | [w] => Some (dot_general x w dims (seq 0 axes))
  | _ => None
  end.
(** 57-97: one dense pattern: block tag, example input shape, parameter shapes, contracted axes *)
Inductive block_tag := RepeatedDense | Dense | Generic | ScaleAndShift.
Record dense_pattern := { tag : block_tag; x_shape : list nat; p_shapes : list (list nat); axes : nat }.
Definition make_flax_dense_pattern (with_bias : bool) (num_repeated_axes num_in_dims num_out_dims : nat) : dense_pattern :=
  let out_dims := map (fun i => i + 2)%nat (seq 0 num_out_dims) in
  let in_dims := map (fun i => i + 2)%nat (seq 0 num_in_dims) in
  let weight_shape := (in_dims ++ out_dims)%list in
  {| tag := if (0 <? num_repeated_axes)%nat then RepeatedDense else Dense;
     x_shape := (2 :: repeat 7 num_repeated_axes ++ in_dims)%nat%list;
     p_shapes := if with_bias then [weight_shape; out_dims] else [weight_shape];
     axes := num_in_dims |}.
(** 248-257 *)
Definition dense_patterns : list dense_pattern :=
  flat_map (fun b => flat_map (fun r => flat_map (fun i => map (fun o => make_flax_dense_pattern b r i o)
    (seq 1 2)) (seq 1 2)) (seq 0 3)) [true; false].

(** ** Curvature factors *)
(** l[-k:] and l[:-k] in Python, k an int *)
Definition last_dims {T} (k : Z) (l : list T) : list T :=
  if (0 <? k)%Z then skipn (List.length l - Z.to_nat k) l else skipn (Z.to_nat (- k)) l.
Definition but_last_dims {T} (k : Z) (l : list T) : list T :=
  if (0 <? k)%Z then firstn (List.length l - Z.to_nat k) l else firstn (Z.to_nat (- k)) l.
Definition rank {T} (l : list T) : Z := Z.of_nat (List.length l).
(** curvature_blocks.py 81-100 *)
Definition weight_dimension_split (xs ys ws : list nat) : Z * Z :=
  let w_dim_in := ((rank ws - (rank ys - rank xs)) / 2)%Z in (w_dim_in, (rank ws - w_dim_in)%Z).
(** 62-79: the rearrangement "(in)(out)" of each parameter *)
Definition parameter_split (xs ys ws : list nat) (ps : list nat) : list nat * list nat :=
  let w_out := snd (weight_dimension_split xs ys ws) in (but_last_dims w_out ps, last_dims w_out ps).
(** kfac_jax parameters_shaped_list_to_array: the parameters, as matrices, stacked row-wise *)
Definition parameter_array (fin fout : nat) (w b : array R) : mat := fun i o => if (i <? fin)%nat then buf w (i * fout + o)%nat else buf b ((i - fin) * fout + o)%nat.
(** 102-105 *)
Definition fixed_scale (xs : list nat) : nat := (size xs / (hd 1 xs * List.last xs 1))%nat.
(** jnp.reshape(x, [-1, f]): fails unless f divides the size; number of rows, rows *)
Definition rows_of {T} (x : array T) (f : nat) : option (nat * (nat -> nat -> T)) :=
  if (negb (f =? 0) && (size (shape x) mod f =? 0))%nat%bool then Some ((size (shape x) / f)%nat, fun a y => buf x (a * f + y)%nat) else None.
Definition cconj_mul (u v : C) : C := Cmult (Cconj u) v.
Fixpoint csum (n : nat) (f : nat -> C) : C := match n with O => RtoC 0 | S k => Cplus (csum k f) (f k) end.
(** 139-141, 177-179: a column of ones for the bias *)
Definition with_ones (bias : bool) (fin : nat) (x : nat -> nat -> R) : nat * (nat -> nat -> R) :=
  if bias then (S fin, fun a y => if (y <? fin)%nat then x a y else 1) else (fin, x).
(** 143-144, 181-183 *)
Definition input_stats (n : nat) (x : nat -> nat -> R) : mat := fun y z => sum n (fun a => x a y * x a z) / INR n.
Definition output_stats (n : nat) (dy : nat -> nat -> C) : mat := fun y z => fst (csum n (fun a => cconj_mul (dy a y) (dy a z))) / INR n.
Record stats := { fin_size : nat; fout_size : nat; in_stats : mat; out_stats : mat }.
(** 107-149: None when an assertion or a reshape fails *)
Definition repeated_dense_stats (bias : bool) (batch_size : nat) (w_shape : list nat) (x : array R) (dy : array C) : option stats :=
  if negb (hd 0 (shape x) =? batch_size)%nat then None else
  let '(w_in, w_out) := weight_dimension_split (shape x) (shape dy) w_shape in
  let fin := size (last_dims w_in (shape x)) in
  let fout := size (last_dims w_out (shape dy)) in
  match rows_of x fin, rows_of dy fout with
  | Some (n, xr), Some (m, dr) =>
      if (n =? m)%nat then
        let '(k, xe) := with_ones bias fin xr in
        Some {| fin_size := k; fout_size := fout; in_stats := input_stats n xe; out_stats := output_stats n dr |}
      else None
  | _, _ => None
  end.
(** 152-188: einsum "ay,az->yz" needs arrays of two axes *)
Definition dense_stats (bias : bool) (batch_size : nat) (x : array R) (dy : array C) : option stats :=
  match shape x, shape dy with
  | [n; fin], [m; fout] =>
      if ((n =? batch_size) && (m =? batch_size))%nat%bool then
        let '(k, xe) := with_ones bias fin (fun a y => buf x (a * fin + y)%nat) in
        Some {| fin_size := k; fout_size := fout; in_stats := input_stats n xe;
                out_stats := output_stats n (fun a y => buf dy (a * fout + y)%nat) |}
      else None
  | _, _ => None
  end.
(** 191-212: the tangent of a generic parameter is already summed over the batch *)
Definition naive_diagonal (batch_size : nat) (dw : nat -> C) (k : nat) : R := fst (cconj_mul (dw k) (dw k)) / INR batch_size.
(** 215-276 for a scale and a shift of shape [fn]: x and dy have shape [batch, m, fn] (m collects the middle
    axes); compatible_sum with skip_axes = [0] sums the middle ones *)
Definition d_scale (m fn : nat) (x : nat -> R) (dy : nat -> C) (b k : nat) : C :=
  csum m (fun r => Cmult (RtoC (x ((b * m + r) * fn + k)%nat)) (dy ((b * m + r) * fn + k)%nat)).
Definition d_shift (m fn : nat) (dy : nat -> C) (b k : nat) : C := csum m (fun r => dy ((b * m + r) * fn + k)%nat).
Definition sum_over_batch (batch_size : nat) (d : nat -> nat -> C) (k : nat) : R :=
  sum batch_size (fun b => fst (cconj_mul (d b k) (d b k))) / INR batch_size.
Definition scale_diag (batch_size m fn : nat) (x : nat -> R) (dy : nat -> C) : nat -> R := sum_over_batch batch_size (d_scale m fn x dy).
Definition shift_diag (batch_size m fn : nat) (dy : nat -> C) : nat -> R := sum_over_batch batch_size (d_shift m fn dy).

(** 26-48 and kfac_jax WeightedMovingAverage.update: the accumulated weight and the average *)
Record average_state := { weight : R; value : mat }.
Definition average_zero : average_state := {| weight := 0; value := fun _ _ => 0 |}.
Definition update_factor (st : average_state) (v : mat) (ema_old ema_new : R) : average_state :=
  let w := weight st * ema_old + ema_new in
  let eta := ema_new / w in
  {| weight := w; value := fun i j => (1 - eta) * value st i j + eta * v i j |}.
Definition update_factors (st : average_state) (hist : list (mat * R * R)) : average_state :=
  fold_left (fun s u => let '(v, o, n) := u in update_factor s v o n) hist st.

(** ** complex_support.py 58-95 *)
(** An output leaf: its number of entries, whether its dtype is complex, its entries as functions of the real
    inputs (a real leaf has zero imaginary parts). *)
Record leaf := { l_size : nat; l_complex : bool; l_fun : vec -> nat -> C }.
Definition partial (f : vec -> R) (x : vec) (i : nat) : R := Derive (fun s => f (fun j => x j + s * delta i j)) 0.
(** jax.vjp of a function with real outputs *)
Definition jax_vjp (fs : list (nat * (vec -> nat -> R))) (x : vec) : list (nat -> R) * ((nat -> nat -> R) -> nat -> R) :=
  (map (fun f => snd f x) fs,
   fun ys i => sum (List.length fs) (fun l => let f := nth l fs (0%nat, fun _ _ => 0) in
     sum (fst f) (fun k => ys l k * partial (fun z => snd f z k) x i))).
Definition real_fun (ls : list leaf) : list (nat * (vec -> nat -> R)) := map (fun l => (l_size l, fun x k => fst (l_fun l x k))) ls.
Definition imag_fun (ls : list leaf) : list (nat * (vec -> nat -> R)) := map (fun l => (l_size l, fun x k => snd (l_fun l x k))) ls.
Definition tree_complex (re im : R) : C := Cplus (RtoC re) (Cmult Ci (RtoC im)).
(** None: has_aux=False raises, or there is no leaf *)
Definition vjp_rc_with_aux (ls : list leaf) (x : vec) (has_aux : bool) : option (list (nat -> C) * ((nat -> nat -> R) -> nat -> C)) :=
  if negb has_aux then None else
  match ls with
  | [] => None
  | first :: _ =>
      let '(vals_real, vjp_real) := jax_vjp (real_fun ls) x in
      if l_complex first then
        let '(vals_imag, vjp_imag) := jax_vjp (imag_fun ls) x in
        Some (map (fun p k => tree_complex (fst p k) (snd p k)) (combine vals_real vals_imag),
              fun ys i => tree_complex (vjp_real ys i) (vjp_imag ys i))
      else Some (map (fun v k => RtoC (v k)) vals_real, fun ys i => RtoC (vjp_real ys i))
  end.

(** 98-117: the global binding of jax.vjp. A computation reads the binding and returns or raises. *)
Inductive binding := OriginalVjp | PatchedVjp | OtherVjp (tag : nat).
Inductive outcome (T : Type) := Returned (t : T) | Raised (msg : string).
Arguments Returned {T}. Arguments Raised {T}.
Definition computation (T : Type) := binding -> outcome T * binding.
Definition patched_layer_tag_vjp {T} (layer_tag_vjp : computation T) : computation T := fun _ =>
  let '(r, _) := layer_tag_vjp PatchedVjp in (r, OriginalVjp).

(** ** kfac.py *)
(** schedule.py 12-43 *)
Definition standard_schedule (rate delay decay : R) (t : nat) : R := rate * Rpower (1 / (1 + INR t / delay)) decay.
Definition constant_schedule (rate : R) (t : nat) : R := rate.
(** optax.scale_by_learning_rate with a schedule: the count starts at 0 and the updates are multiplied by -lr *)
Definition scale_by_learning_rate (lr : nat -> R) (count : nat) (g : vec) : vec * nat := (fun i => - lr count * g i, S count).
(** kfac_jax OptaxPreconditioner.apply: multiply by the inverse of the (damped) curvature, then scale so that the
    squared Fisher norm, computed as the inner product with the incoming updates, is at most norm_constraint *)
Definition norm_coefficient (constraint sq_norm : R) : R :=
  if Req_EM_T sq_norm 0 then 1 else Rmin 1 (sqrt (constraint / sq_norm)).
Definition precondition (n : nat) (Finv : mat) (constraint : R) (u : vec) : vec :=
  let v := fun i => sum n (fun j => Finv i j * u j) in
  let c := norm_coefficient constraint (dot n v u) in fun i => c * v i.
(** 115-164, 195-198: the preconditioner state is refreshed from the current parameters before use; [refresh] is
    maybe_update, which gives the new inverse curvature. [None] is the RuntimeError before init. *)
Record kfac_state := { count : nat; pre_count : nat; curvature_inv : mat }.
Definition kfac_update (built : bool) (n : nat) (lr : nat -> R) (constraint : R) (refresh : kfac_state -> mat)
    (g : vec) (st : kfac_state) : option (vec * kfac_state) :=
  if negb built then None else
  let finv := refresh st in
  let '(u, c) := scale_by_learning_rate lr (count st) g in
  Some (precondition n finv constraint u, {| count := c; pre_count := S (pre_count st); curvature_inv := finv |}).
