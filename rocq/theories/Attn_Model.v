(** Model of the hand-written forward-Laplacian rule of LapNet's attention,
    /repo/src/jaqmc/wavefunction/backbone/lapnet/_attention.py.

    Simplifications: exact real arithmetic; arrays of shape (electrons, heads, features) are functions on flat
    row-major indices, as in Sparse_Model; the check that a dense value is tracked with respect to the same number
    of inputs (43-46) always holds, since there is one tracked input; [None] is AutoLaplacianFallback, after
    which the interpreter runs the body of lapnet_sparse_attention equation by equation (C38, C39). *)
From Coq Require Import Reals List Arith Bool.
From Verif Require Import Lin Shape Lap_Spec Lap_Lang Lap_Model Sparse_Model.
Import ListNotations.
Open Scope R_scope.

(** element (i, h, d) of an array of shape (_, H, D) *)
Definition at3 (H D : nat) (a : arr) (i h d : nat) : R := a ((i * H + h) * D + d)%nat.
(** and back: electron, head and feature of a flat index *)
Definition el (H D o : nat) : nat := (o / (H * D))%nat.
Definition hd (H D o : nat) : nat := ((o / D) mod H)%nat.
Definition ft (D o : nat) : nat := (o mod D)%nat.

(** lapnet_sparse_attention, lines 20-34.  softmax subtracts the maximum of its row *)
Definition logits (H D : nat) (q k : arr) (h i j : nat) : R := sum D (fun d => at3 H D q i h d * at3 H D k j h d) / sqrt (INR D).
Definition row_max (n : nat) (f : nat -> R) : R := fold_right Rmax (f 0%nat) (map f (seq 0 n)).
Definition softmax (n : nat) (f : nat -> R) (j : nat) : R := exp (f j - row_max n f) / sum n (fun j => exp (f j - row_max n f)).
Definition attention (n H D : nat) (q k v : arr) (o : nat) : R :=
  sum n (fun j => softmax n (logits H D q k (hd H D o) (el H D o)) j * at3 H D v j (hd H D o) (ft D o)).

(** _as_dense_laptuple, lines 37-52 *)
Definition as_dense (b : basis) (sh : list nat) (v : sval) : lap :=
  match v with
  | SPlain a => {| lx := a; jac := fun _ _ => 0; lapl := fun _ => 0 |}
  | SDense t => t
  | SSparse t => {| lx := sx t; jac := to_dense b sh t; lapl := sl t |}
  end.
(** _supports_local1_attention with _local1_owner_matches_sparse_axis, 55-80: [shq], [shk] are the shapes *)
Definition owner_matches (n : nat) (r : role) : bool := match ax r with Some a => Nat.eqb a 0 | None => false end && nats_eqb (vals r) (seq 0 n).
Definition supports (b : basis) (shq shk : list nat) (q k : sparse) : bool :=
  let n := nth 0 shq 0%nat in
  nats_eqb shq shk && Nat.eqb (b_N b) n && roles_eqb (owners q) (owners k) && owner_matches n (owner q 0) && owner_matches n (owner k 0).

(** _attention_quotient, 83-112: numerator (j: derivative index, h, i, d), denominator (h, i) *)
Definition quotient (N : nat) (nx : nat -> nat -> nat -> R) (nj : nat -> nat -> nat -> nat -> R) (nl : nat -> nat -> nat -> R)
  (dx : nat -> nat -> R) (dj : nat -> nat -> nat -> R) (dl : nat -> nat -> R) (H D : nat) : lap :=
  let inv h i := 1 / dx h i in
  let x h i d := nx h i d * inv h i in
  let j t h i d := nj t h i d * inv h i - nx h i d * dj t h i * inv h i ^ 2 in
  let cross h i d := sum N (fun t => nj t h i d * dj t h i) in
  let sq h i := sum N (fun t => dj t h i ^ 2) in
  let l h i d := nl h i d * inv h i - 2 * cross h i d * inv h i ^ 2 - nx h i d * dl h i * inv h i ^ 2 + 2 * nx h i d * sq h i * inv h i ^ 3 in
  {| lx := fun o => x (hd H D o) (el H D o) (ft D o);
     jac := fun t o => j t (hd H D o) (el H D o) (ft D o);
     lapl := fun o => l (hd H D o) (el H D o) (ft D o) |}.

(** _lapnet_sparse_attention_local1_rule, 115-196 *)
Definition local1_rule (b : basis) (n H D : nat) (q k : sparse) (value : sval) : lap :=
  let Cd := b_C b in
  let N := (b_N b * Cd)%nat in
  let v := as_dense b [n; H; D] value in
  let eye := delta in
  let qx := at3 H D (sx q) in let kx := at3 H D (sx k) in
  let qb c := at3 H D (blk q 0 c) in let kb c := at3 H D (blk k 0 c) in
  let ql := at3 H D (sl q) in let kl := at3 H D (sl k) in
  let scale := sqrt (INR D) in
  let logits_x h i j := sum D (fun d => qx i h d * kx j h d) / scale in
  let logits_grad_i c h i j := sum D (fun d => qb c i h d * kx j h d) / scale in
  let logits_grad_j c h i j := sum D (fun d => qx i h d * kb c j h d) / scale in
  let logits_cross h i := 2 * sum Cd (fun c => sum D (fun d => qb c i h d * kb c i h d)) / scale in
  let logits_l h i j := (sum D (fun d => ql i h d * kx j h d) + sum D (fun d => qx i h d * kl j h d)) / scale + logits_cross h i * eye i j in
  let logits_trace h i j := sum Cd (fun c => logits_grad_i c h i j ^ 2) + sum Cd (fun c => logits_grad_j c h i j ^ 2)
                            + 2 * sum Cd (fun c => logits_grad_i c h i j * logits_grad_j c h i j) * eye i j in
  let weights_x h i j := exp (logits_x h i j - row_max n (logits_x h i)) in
  let weights_grad_i c h i j := weights_x h i j * logits_grad_i c h i j in
  let weights_grad_j c h i j := weights_x h i j * logits_grad_j c h i j in
  let weights_l h i j := weights_x h i j * (logits_l h i j + logits_trace h i j) in
  let denom_x h i := sum n (fun j => weights_x h i j) in
  let denom_grad_i c h i := sum n (fun j => weights_grad_i c h i j) in
  (* reshape (particle, coordinate) -> tracked index *)
  let denom_j t h i := eye (t / Cd)%nat i * denom_grad_i (t mod Cd)%nat h i + weights_grad_j (t mod Cd)%nat h i (t / Cd)%nat in
  let denom_l h i := sum n (fun j => weights_l h i j) in
  let vx := at3 H D (lx v) in let vl := at3 H D (lapl v) in
  let vj p c := at3 H D (jac v (p * Cd + c)%nat) in
  let numer_x h i d := sum n (fun j => weights_x h i j * vx j h d) in
  let numer_j t h i d :=
    eye (t / Cd)%nat i * sum n (fun j => weights_grad_i (t mod Cd)%nat h i j * vx j h d)
    + weights_grad_j (t mod Cd)%nat h i (t / Cd)%nat * vx (t / Cd)%nat h d
    + sum n (fun j => weights_x h i j * vj (t / Cd)%nat (t mod Cd)%nat j h d) in
  let numer_l h i d :=
    sum n (fun j => weights_l h i j * vx j h d) + sum n (fun j => weights_x h i j * vl j h d)
    + 2 * sum Cd (fun c => sum n (fun j => weights_grad_i c h i j * vj i c j h d))
    + 2 * sum Cd (fun c => sum n (fun j => weights_grad_j c h i j * vj j c j h d)) in
  quotient N numer_x numer_j numer_l denom_x denom_j denom_l H D.

(** _lapnet_sparse_attention_rule, 199-220: the value has the shape of the query *)
Definition attention_rule (b : basis) (shq shk : list nat) (query key value : sval) : option lap :=
  match query, key, shq with
  | SSparse q, SSparse k, [n; H; D] =>
      if Nat.eqb (slots q) 1 && Nat.eqb (slots k) 1 && supports b shq shk q k then Some (local1_rule b n H D q k value) else None
  | _, _, _ => None
  end.
