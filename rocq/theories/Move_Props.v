(** C81: one DMC step of a walker. *)
From Coq Require Import Reals List Bool Arith Lia Lra Psatz.
From Coquelicot Require Import Coquelicot.
From Verif Require Import Move_Model.
Import ListNotations.
Open Scope R_scope.

(** ** Vectors *)
Lemma dot_pos a : 0 <= vdot a a.
Proof. destruct a as [[x y] z]. unfold vdot. nra. Qed.
Lemma norm_pos a : 0 <= norm a.
Proof. apply sqrt_pos. Qed.
Lemma norm_sq a : norm a ^ 2 = vdot a a.
Proof. unfold norm. apply pow2_sqrt, dot_pos. Qed.
Lemma norm_zero a : norm a = 0 -> a = vzero.
Proof.
  intros H. assert (E : vdot a a = 0) by (rewrite <- norm_sq, H; ring). destruct a as [[x y] z]. unfold vdot in E. unfold vzero.
  assert (x = 0) by nra. assert (y = 0) by nra. assert (z = 0) by nra. congruence.
Qed.
Lemma dot_sym a b : vdot a b = vdot b a.
Proof. destruct a as [[? ?] ?], b as [[? ?] ?]. unfold vdot. ring. Qed.
Lemma dot_scale t a b : vdot (vscale t a) b = t * vdot a b.
Proof. destruct a as [[? ?] ?], b as [[? ?] ?]. unfold vdot, vscale. ring. Qed.
Lemma dot_scale_r t a b : vdot a (vscale t b) = t * vdot a b.
Proof. rewrite dot_sym, dot_scale, dot_sym. reflexivity. Qed.
Lemma cauchy a b : vdot a b ^ 2 <= vdot a a * vdot b b.
Proof.
  destruct a as [[a1 a2] a3], b as [[b1 b2] b3]. unfold vdot.
  assert (0 <= (a1 * b2 - a2 * b1) ^ 2 + (a1 * b3 - a3 * b1) ^ 2 + (a2 * b3 - a3 * b2) ^ 2) by (repeat apply Rplus_le_le_0_compat; apply pow2_ge_0). nra.
Qed.
Lemma norm_scale t a : norm (vscale t a) = Rabs t * norm a.
Proof.
  unfold norm. rewrite dot_scale, dot_scale_r. replace (t * (t * vdot a a)) with ((t * t) * vdot a a) by ring. rewrite sqrt_mult; [|nra|apply dot_pos].
  f_equal. apply sqrt_Rsqr_abs.
Qed.
Lemma unit_some a u : unit_of a = Some u -> 0 < norm a /\ u = vscale (/ norm a) a /\ vdot u u = 1 /\ norm a = vdot a u.
Proof.
  unfold unit_of. destruct (Req_EM_T (norm a) 0) as [|N]; [discriminate|]. intros H. injection H as <-.
  assert (P : 0 < norm a) by (pose proof (norm_pos a); lra). split; [exact P|]. split; [reflexivity|].
  rewrite !dot_scale, !dot_scale_r, <- norm_sq. split; field; lra.
Qed.
Lemma unit_none a : unit_of a = None -> a = vzero.
Proof. unfold unit_of. destruct (Req_EM_T (norm a) 0) as [E|]; [|discriminate]. intros _. apply norm_zero, E. Qed.
Lemma unit_dot u v : vdot u u = 1 -> vdot v v = 1 -> -1 <= vdot u v <= 1.
Proof. intros U V. pose proof (cauchy u v) as C. rewrite U, V in C. split; nra. Qed.

Lemma perp_dot u v t : vdot u (vsub v (vscale t u)) = vdot v u - t * vdot u u.
Proof. destruct v as [[? ?] ?], u as [[? ?] ?]. unfold vdot, vsub, vscale. ring. Qed.
Lemma perp_sq u v t : vdot (vsub v (vscale t u)) (vsub v (vscale t u)) = vdot v v - 2 * t * vdot v u + t ^ 2 * vdot u u.
Proof. destruct v as [[? ?] ?], u as [[? ?] ?]. unfold vdot, vsub, vscale. ring. Qed.

(** ** The nucleus used is a nearest one *)
Lemma nearest_from_spec pos : forall l i best d, let k := nearest_from pos i best d l in
  (k = best /\ (forall j, (j < length l)%nat -> d <= norm (vsub pos (nth j l vzero)))) \/
  ((i <= k < i + length l)%nat /\ norm (vsub pos (nth (k - i) l vzero)) < d /\ forall j, (j < length l)%nat -> norm (vsub pos (nth (k - i) l vzero)) <= norm (vsub pos (nth j l vzero))).
Proof.
  induction l as [|n l IH]; intros i best d; cbn [nearest_from]; [left; split; [reflexivity|cbn; lia]|]. destruct (Rlt_dec _ _) as [L|L].
  - right. destruct (IH (S i) i (norm (vsub pos n))) as [[E A]|(B & C & D)].
    + rewrite E, Nat.sub_diag. cbn [length nth]. split; [lia|]. split; [exact L|]. intros [|j] J; [lra|]. apply A. lia.
    + set (k := nearest_from pos (S i) i (norm (vsub pos n)) l) in *. cbn [length]. split; [lia|]. replace (k - i)%nat with (S (k - S i)) by lia. cbn [nth]. split; [lra|]. intros [|j] J; [lra|]. apply D. lia.
  - destruct (IH (S i) best d) as [[E A]|(B & C & D)].
    + left. split; [exact E|]. cbn [length]. intros [|j] J; cbn [nth]; [lra|]. apply A. lia.
    + right. set (k := nearest_from pos (S i) best d l) in *. cbn [length]. split; [lia|]. replace (k - i)%nat with (S (k - S i)) by lia. cbn [nth]. split; [lra|]. intros [|j] J; [lra|]. apply D. lia.
Qed.
Theorem C81_nearest : forall pos nuclei, nuclei <> [] -> (nearest pos nuclei < length nuclei)%nat /\
  forall j, (j < length nuclei)%nat -> norm (vsub pos (nth (nearest pos nuclei) nuclei vzero)) <= norm (vsub pos (nth j nuclei vzero)).
Proof.
  intros pos [|n l] NE; [contradiction|]. unfold nearest. destruct (nearest_from_spec pos l 1 0 (norm (vsub pos n))) as [[E A]|(B & C & D)].
  - rewrite E. cbn [length nth]. split; [lia|]. intros [|j] J; [lra|]. apply A. lia.
  - set (k := nearest_from pos 1 0 (norm (vsub pos n)) l) in *. cbn [length]. split; [lia|]. replace k with (S (k - 1)) by lia. cbn [nth]. intros [|j] J; [lra|]. apply D. lia.
Qed.

(** ** Velocity limiting *)
Lemma factor_range x : 0 <= x -> 0 < clip_factor x <= 1 /\ clip_factor x ^ 2 * x <= 2 /\ 1 - x / 2 <= clip_factor x.
Proof.
  intros X. unfold clip_factor. destruct (Rlt_dec x clip_threshold) as [L|L]; unfold clip_threshold in L.
  - assert (2 / 10 ^ 4 < 1) by lra. split; [lra|]. split; lra.
  - assert (P : 0 < x). { assert (0 < 2 / 10 ^ 4) by lra. lra. }
    set (s := sqrt (1 + 2 * x)). assert (S2 : s * s = 1 + 2 * x) by (apply sqrt_sqrt; lra). assert (S0 : 0 <= s) by apply sqrt_pos.
    assert (S1 : 1 < s) by nra.
    assert (E : (-1 + s) / x = 2 / (1 + s)). { apply Rmult_eq_reg_r with (x * (1 + s)); [|nra]. field_simplify; [nra|nra|nra]. }
    rewrite E. assert (D : 0 < / (1 + s)) by (apply Rinv_0_lt_compat; lra). assert (DS : / (1 + s) * (1 + s) = 1) by (field; lra). unfold Rdiv.
    split; [split; [nra|]|split].
    + nra.
    + replace x with ((s - 1) * (1 + s) / 2) by nra. replace ((2 * / (1 + s)) ^ 2 * ((s - 1) * (1 + s) / 2)) with (2 * (s - 1) * / (1 + s)) by (field; lra). nra.
    + replace x with ((s - 1) * (1 + s) / 2) by nra. apply Rmult_le_reg_r with (1 + s); [lra|]. replace (2 * / (1 + s) * (1 + s)) with 2 by (field; lra). nra.
Qed.
(** For a moving electron away from the nucleus: the velocity keeps its direction, shrinks by
    a factor c in (0, 1], is not changed much when the drift is short (c >= 1 - x/2, where x =
    a |v|^2 tau), and the limited drift is bounded: a |c v|^2 tau <= 2, where a >= 0. *)
Theorem C81_clip : forall v pos n Z tau, 0 < tau -> v <> vzero -> pos <> n ->
  exists a c, 0 <= a /\ 0 < c <= 1 /\ clip_velocity v pos n Z tau = Some (vscale c v) /\
    a * vdot (vscale c v) (vscale c v) * tau <= 2 /\ 1 - a * vdot v v * tau / 2 <= c /\
    (Z <> 0 -> 0 < a).
Proof.
  intros v pos n Z tau T V P. unfold clip_velocity, weight_control.
  destruct (unit_of v) as [e|] eqn:E; [|apply unit_none in E; contradiction]. destruct (unit_of (vsub pos n)) as [u|] eqn:U.
  2:{ apply unit_none in U. contradiction P. destruct pos as [[? ?] ?], n as [[? ?] ?]. unfold vsub, vzero in U. injection U as A B C. f_equal; [f_equal|]; lra. }
  apply unit_some in E as (E1 & _ & E2 & _). apply unit_some in U as (U1 & _ & U2 & _). cbn [obind].
  set (d := norm (vsub pos n)) in *. set (extra := if Req_EM_T (Z * d) 0 then 0 else 1 / 10 / (4 / (Z * d) ^ 2 + 1)).
  pose proof (unit_dot e u E2 U2) as D.
  assert (X : 0 <= extra /\ (Z <> 0 -> 0 < extra)).
  { unfold extra. destruct (Req_EM_T (Z * d) 0) as [Q|Q]; [split; [lra|]; intros N; exfalso; apply Rmult_integral in Q; lra|].
    assert (Y : 0 < 4 / (Z * d) ^ 2 + 1). { apply Rplus_lt_0_compat; [|lra]. apply Rdiv_lt_0_compat; [lra|]. assert (0 < (Z * d) ^ 2) by (assert (0 <= (Z * d) ^ 2) by apply pow2_ge_0; assert ((Z * d) ^ 2 <> 0) by (apply pow_nonzero, Q); lra). assumption. }
    assert (0 < 1 / 10 / (4 / (Z * d) ^ 2 + 1)) by (apply Rdiv_lt_0_compat; [lra|exact Y]). split; [lra|auto]. }
  exists (1 / 2 * (1 + vdot e u) + extra). set (a := 1 / 2 * (1 + vdot e u) + extra). exists (clip_factor (a * vdot v v * tau)).
  assert (A : 0 <= a) by (unfold a; lra). pose proof (dot_pos v) as VV. assert (XX : 0 <= a * vdot v v * tau) by (apply Rmult_le_pos; [apply Rmult_le_pos|]; lra).
  destruct (factor_range _ XX) as (F1 & F2 & F3). split; [exact A|]. split; [exact F1|]. split; [reflexivity|]. split; [|split; [exact F3|]].
  - rewrite dot_scale, dot_scale_r. nra.
  - intros N. destruct X as [_ X]. specialize (X N). unfold a. lra.
Qed.

(** ** Drift *)
(** The drifted electron is never on the other side of the nucleus, and moves by no more than
    twice the velocity times the time step. *)
Theorem C81_drift : forall pos n v tau r, 0 < tau -> do_drift pos n v tau = Some r ->
  0 <= vdot (vsub r n) (vsub pos n) /\ norm (vsub r pos) <= 2 * norm v * tau.
Proof.
  intros pos n v tau r T H. unfold do_drift in H. destruct (unit_of (vsub pos n)) as [u|] eqn:U; [|discriminate]. cbn [obind] in H.
  set (vz := vdot v u) in *. set (w := vsub v (vscale vz u)) in *. destruct (unit_of w) as [e|] eqn:E; [|discriminate]. cbn [obind] in H. injection H as <-.
  apply unit_some in U as (D & UD & UU & _). apply unit_some in E as (W & ED & EE & _). set (d := norm (vsub pos n)) in *.
  assert (UW : vdot u w = 0). { unfold w. rewrite perp_dot, UU. fold vz. ring. }
  assert (UE : vdot u e = 0) by (rewrite ED, dot_scale_r, UW; ring).
  assert (PN : vsub pos n = vscale d u). { rewrite UD. destruct (vsub pos n) as [[x y] z]. unfold vscale. f_equal; [f_equal|]; field; lra. }
  set (z2 := Rmax (d + vz * tau) 0). set (rho2 := 2 * norm w * tau * z2 / (d + z2)).
  assert (Z0 : 0 <= z2) by apply Rmax_r.
  assert (RN : vsub (vadd (vadd n (vscale z2 u)) (vscale rho2 e)) n = vadd (vscale z2 u) (vscale rho2 e)).
  { destruct n as [[? ?] ?], u as [[? ?] ?], e as [[? ?] ?]. unfold vsub, vadd, vscale. f_equal; [f_equal|]; ring. }
  split.
  - rewrite RN, PN, dot_scale_r. replace (vdot (vadd (vscale z2 u) (vscale rho2 e)) u) with (z2 * vdot u u + rho2 * vdot u e) by (destruct u as [[? ?] ?], e as [[? ?] ?]; unfold vdot, vadd, vscale; ring). rewrite UU, UE. apply Rmult_le_pos; nra.
  - assert (RP : vsub (vadd (vadd n (vscale z2 u)) (vscale rho2 e)) pos = vadd (vscale (z2 - d) u) (vscale rho2 e)).
    { transitivity (vsub (vsub (vadd (vadd n (vscale z2 u)) (vscale rho2 e)) n) (vsub pos n)).
      - destruct n as [[? ?] ?], u as [[? ?] ?], e as [[? ?] ?], pos as [[? ?] ?]. unfold vsub, vadd, vscale. f_equal; [f_equal|]; ring.
      - rewrite RN, PN. destruct u as [[? ?] ?], e as [[? ?] ?]. unfold vsub, vadd, vscale. f_equal; [f_equal|]; ring. }
    rewrite RP. assert (SQ : vdot (vadd (vscale (z2 - d) u) (vscale rho2 e)) (vadd (vscale (z2 - d) u) (vscale rho2 e)) = (z2 - d) ^ 2 + rho2 ^ 2).
    { transitivity ((z2 - d) ^ 2 * vdot u u + 2 * (z2 - d) * rho2 * vdot u e + rho2 ^ 2 * vdot e e); [destruct u as [[? ?] ?], e as [[? ?] ?]; unfold vdot, vadd, vscale; ring|]. rewrite UU, UE, EE. ring. }
    unfold norm at 1. rewrite SQ.
    assert (VV : vdot v v = vz ^ 2 + norm w ^ 2). { rewrite norm_sq. unfold w. rewrite perp_sq, UU. fold vz. ring. }
    assert (Z1 : (z2 - d) ^ 2 <= (vz * tau) ^ 2). { unfold z2. unfold Rmax. destruct (Rle_dec (d + vz * tau) 0); nra. }
    assert (R1 : 0 <= rho2 <= 2 * norm w * tau).
    { unfold rho2. assert (Q : 0 <= z2 / (d + z2) <= 1). { split; [apply Rdiv_le_0_compat; lra|]. apply Rmult_le_reg_r with (d + z2); [lra|]. field_simplify; lra. }
      replace (2 * norm w * tau * z2 / (d + z2)) with (2 * norm w * tau * (z2 / (d + z2))) by (field; lra). assert (0 <= 2 * norm w * tau) by nra. nra. }
    assert (B : (z2 - d) ^ 2 + rho2 ^ 2 <= (2 * norm v * tau) ^ 2).
    { replace ((2 * norm v * tau) ^ 2) with (4 * norm v ^ 2 * tau ^ 2) by ring. rewrite norm_sq, VV. assert (rho2 ^ 2 <= (2 * norm w * tau) ^ 2) by nra. nra. }
    rewrite <- (sqrt_pow2 (2 * norm v * tau)) by (pose proof (norm_pos v); nra). apply sqrt_le_1_alt, B.
Qed.

(** ** The proposal *)
(** Specification: the density of a normal distribution of variance tau about m, of a Slater
    distribution of exponent 2 zeta about n, and their mixture. *)
Definition normal3 (m : vec) (tau : R) (x : vec) : R := / sqrt ((2 * PI * tau) ^ 3) * exp (- vdot (vsub x m) (vsub x m) / (2 * tau)).
Definition slater (n : vec) (z : R) (x : vec) : R := z ^ 3 / PI * exp (- 2 * z * norm (vsub x n)).
Definition move_density (p : prep) (tau : R) (x : vec) : R := (1 - over p) * normal3 (drifted p) tau x + over p * slater (nuc p) (zeta p) x.

Lemma normal3_pos m tau x : 0 < tau -> 0 < normal3 m tau x.
Proof.
  intros T. unfold normal3. apply Rmult_lt_0_compat; [|apply exp_pos]. apply Rinv_0_lt_compat, sqrt_lt_R0, pow_lt. pose proof PI_RGT_0. nra.
Qed.
Lemma slater_pos n z x : 0 < z -> 0 < slater n z x.
Proof.
  intros T. unfold slater. apply Rmult_lt_0_compat; [|apply exp_pos]. apply Rdiv_lt_0_compat; [apply pow_lt, T|apply PI_RGT_0].
Qed.
Lemma sqrt_exp y : sqrt (exp y) = exp (y / 2).
Proof. rewrite <- (sqrt_Rsqr (exp (y / 2))) by (left; apply exp_pos). f_equal. unfold Rsqr. rewrite <- exp_plus. f_equal. lra. Qed.
Lemma exp3ln b : 0 < b -> exp (3 * ln b) = b ^ 3.
Proof. intros B. replace (3 * ln b) with (ln b + ln b + ln b) by ring. rewrite !exp_plus, exp_ln by exact B. ring. Qed.


Lemma g1_normal tau m x : 0 < tau -> g1 tau (vsub x m) = normal3 m tau x.
Proof.
  intros T. unfold g1, normal3. pose proof PI_RGT_0 as P. assert (A : 0 < 2 * PI * tau) by nra.
  unfold Rminus. rewrite exp_plus. f_equal.
  - rewrite <- (exp3ln _ A), sqrt_exp, <- exp_Ropp. f_equal. field.
  - f_equal. field. lra.
Qed.
Lemma g2_slater z n x : 0 < z -> g2 z (vsub x n) = slater n z x.
Proof.
  intros Z. unfold g2, slater. unfold Rminus. rewrite exp_plus, exp3ln by exact Z. replace (- (2 * z * norm (vsub x n))) with (- 2 * z * norm (vsub x n)) by ring. field. apply PI_neq0.
Qed.

Lemma prep_facts erfc nuclei charges tau : 0 < tau -> (forall x, 0 < erfc x < 2) -> forall pos v p, prep1 erfc nuclei charges tau pos v = Some p ->
  0 < over p < 1 /\ 0 < zeta p /\ nuc p = nth (nearest pos nuclei) nuclei vzero /\ zeta p ^ 2 = nth (nearest pos nuclei) charges 0 ^ 2 + 1 / tau.
Proof.
  intros T erfc_range pos v p.
  unfold prep1, prepare. destruct (clip_velocity _ _ _ _ _) as [c|]; [|discriminate]. cbn [obind]. destruct (do_drift _ _ _ _) as [d|]; [|discriminate]. cbn [obind].
  unfold overshoot. destruct (unit_of _) as [u|]; [|discriminate]. cbn [obind]. intros H. injection H as <-. cbn [over zeta nuc].
  match goal with |- context[erfc ?a] => pose proof (erfc_range a) end. split; [lra|].
  assert (0 < 1 / tau) by (apply Rdiv_lt_0_compat; lra). assert (Q : 0 < nth (nearest pos nuclei) charges 0 ^ 2 + 1 / tau) by (pose proof (pow2_ge_0 (nth (nearest pos nuclei) charges 0)); lra).
  split; [apply sqrt_lt_R0; exact Q|]. split; [reflexivity|]. apply pow2_sqrt. lra.
Qed.
Lemma G_density erfc nuclei charges tau : 0 < tau -> (forall x, 0 < erfc x < 2) -> forall pos v p x, prep1 erfc nuclei charges tau pos v = Some p ->
  0 < move_density p tau x /\ exp (G_to p tau x) = move_density p tau x.
Proof.
  intros T E pos v p x H. destruct (prep_facts _ _ _ _ T E _ _ _ H) as (O & Z & _). unfold G_to, G_log, move_density. rewrite g1_normal, g2_slater by assumption.
  pose proof (normal3_pos (drifted p) tau x T). pose proof (slater_pos (nuc p) (zeta p) x Z).
  replace (1 - (1 - over p)) with (over p) by ring. assert (P : 0 < (1 - over p) * normal3 (drifted p) tau x + over p * slater (nuc p) (zeta p) x) by (apply Rplus_lt_0_compat; apply Rmult_lt_0_compat; lra).
  split; [exact P|]. apply exp_ln, P.
Qed.
(** How an electron moves: for a moving electron away from its nearest nucleus n, not moving
    along the line to it, the proposal is well defined. *)
Theorem C81_proposal : forall erfc nuclei charges tau pos v, 0 < tau -> (forall x, 0 < erfc x < 2) ->
  let n := nth (nearest pos nuclei) nuclei vzero in let Z := nth (nearest pos nuclei) charges 0 in
  pos <> n -> (forall t, v <> vscale t (vsub pos n)) ->
  exists p c d u q,
    prep1 erfc nuclei charges tau pos v = Some p /\ nuc p = n /\ zeta p = sqrt (Z ^ 2 + 1 / tau) /\
    clip_velocity v pos n Z tau = Some c /\ clipped p = c /\
    do_drift pos n c tau = Some d /\ drifted p = d /\
    u = vscale (/ norm (vsub pos n)) (vsub pos n) /\ q = 1 / 2 * erfc ((norm (vsub pos n) + vdot c u * tau) / sqrt (2 * tau)) /\ over p = q /\ 0 < q < 1 /\
    forall x, 0 < move_density p tau x /\ exp (G_to p tau x) = move_density p tau x.
Proof.
  intros erfc nuclei charges tau pos v T E n Z PN V.
  assert (VZ : v <> vzero). { intros ->. apply (V 0). destruct (vsub pos n) as [[? ?] ?]. unfold vzero, vscale. f_equal; [f_equal|]; ring. }
  destruct (C81_clip v pos n Z tau T VZ PN) as (a & c & _ & C & CV & _).
  destruct (unit_of (vsub pos n)) as [u|] eqn:U.
  2:{ apply unit_none in U. contradiction PN. destruct pos as [[? ?] ?], n as [[? ?] ?]. unfold vsub, vzero in U. injection U as A B D. f_equal; [f_equal|]; lra. }
  pose proof (unit_some _ _ U) as (D & UE & UU & _).
  assert (DD : exists d, do_drift pos n (vscale c v) tau = Some d).
  { unfold do_drift. rewrite U. cbn [obind]. destruct (unit_of (vsub (vscale c v) _)) as [e|] eqn:W; [eexists; reflexivity|]. exfalso. apply unit_none in W.
    apply (V (/ c * vdot (vscale c v) u * / norm (vsub pos n))). set (k := vdot (vscale c v) u) in *. clearbody k. rewrite UE in W.
    destruct v as [[v1 v2] v3], (vsub pos n) as [[x y] z] eqn:Q. unfold vsub, vscale, vzero in *. injection W as W1 W2 W3.
    set (m := / norm (x, y, z)) in *. clearbody m.
    assert (CC : / c * c = 1) by (field; lra). f_equal; [f_equal|].
    - transitivity (/ c * (c * v1)); [rewrite <- Rmult_assoc, CC; ring|]. replace (c * v1) with (k * (m * x)) by lra. ring.
    - transitivity (/ c * (c * v2)); [rewrite <- Rmult_assoc, CC; ring|]. replace (c * v2) with (k * (m * y)) by lra. ring.
    - transitivity (/ c * (c * v3)); [rewrite <- Rmult_assoc, CC; ring|]. replace (c * v3) with (k * (m * z)) by lra. ring. }
  destruct DD as [d DD].
  assert (P : prep1 erfc nuclei charges tau pos v = Some {| clipped := vscale c v; drifted := d; over := 1 / 2 * erfc ((norm (vsub pos n) + vdot (vscale c v) u * tau) / sqrt (2 * tau)); nuc := n; zeta := sqrt (Z ^ 2 + 1 / tau) |}).
  { unfold prep1, prepare. fold n. fold Z. rewrite CV. cbn [obind]. rewrite DD. cbn [obind]. unfold overshoot. rewrite U. reflexivity. }
  eexists _, (vscale c v), d, u, _. split; [exact P|]. cbn [clipped drifted over nuc zeta]. repeat (split; [first [reflexivity|assumption]|]).
  split; [match goal with |- context[erfc ?a] => pose proof (E a) end; lra|]. intros x. eapply G_density; eassumption.
Qed.
(** Where the move ends: with a uniform number u < 1 - q, at the drifted position plus a normal
    step of variance tau; otherwise at the nucleus plus a vector of length g/(2 zeta), cosine
    of the polar angle 1 - 2w and azimuth phi. These have the two densities above: the density
    of the image of a standard normal vector is the normal one, and of a gamma variate of
    shape 3, times the area of the sphere, the Slater one, which integrates to one. *)
Theorem C81_draw : forall p tau d, 0 < tau -> 0 < zeta p -> 0 <= d_gamma d -> 0 <= d_w d <= 1 ->
  (d_u d < 1 - over p -> diffuse p tau d = vadd (drifted p) (vscale (sqrt tau) (d_normal d)) /\
     normal3 (drifted p) tau (diffuse p tau d) * sqrt tau ^ 3 = normal3 vzero 1 (d_normal d)) /\
  (1 - over p <= d_u d -> exists x y z, diffuse p tau d = vadd (nuc p) (x, y, z) /\
     norm (x, y, z) = d_gamma d / (2 * zeta p) /\ z = norm (x, y, z) * (1 - 2 * d_w d) /\
     exists s, 0 <= s /\ x = s * cos (d_phi d) /\ y = s * sin (d_phi d)) /\
  vdot (delta_R p tau d) (delta_R p tau d) = (if Rlt_dec (d_u d) (1 - over p) then tau * vdot (d_normal d) (d_normal d) else (d_gamma d / (2 * zeta p)) ^ 2).
Proof.
  intros p tau d T Z G W.
  assert (GA : vdot (sample_gamma (zeta p) (d_gamma d) (d_phi d) (d_w d)) (sample_gamma (zeta p) (d_gamma d) (d_phi d) (d_w d)) = (d_gamma d / (2 * zeta p)) ^ 2).
  { unfold sample_gamma, vdot. set (r := d_gamma d * (1 / 2) / zeta p). set (th := acos (1 - 2 * d_w d)). pose proof (sin2_cos2 (d_phi d)) as A. pose proof (sin2_cos2 th) as B. unfold Rsqr in A, B.
    transitivity (r * r * ((sin (d_phi d) * sin (d_phi d) + cos (d_phi d) * cos (d_phi d)) * (sin th * sin th) + cos th * cos th)); [ring|]. rewrite A. transitivity (r * r * (sin th * sin th + cos th * cos th)); [ring|]. rewrite B. unfold r. field. lra. }
  split; [|split].
  - intros U. unfold diffuse, delta_R. destruct (Rlt_dec _ _) as [_|]; [|contradiction]. split; [reflexivity|]. unfold normal3.
    replace (vsub (vadd (drifted p) (vscale (sqrt tau) (d_normal d))) (drifted p)) with (vscale (sqrt tau) (d_normal d)) by (destruct (drifted p) as [[? ?] ?], (d_normal d) as [[? ?] ?]; unfold vsub, vadd, vscale; f_equal; [f_equal|]; ring).
    replace (vsub (d_normal d) vzero) with (d_normal d) by (destruct (d_normal d) as [[? ?] ?]; unfold vsub, vzero; f_equal; [f_equal|]; ring).
    rewrite dot_scale, dot_scale_r. replace (sqrt tau * (sqrt tau * vdot (d_normal d) (d_normal d))) with (tau * vdot (d_normal d) (d_normal d)) by (rewrite <- Rmult_assoc, sqrt_sqrt by lra; ring).
    replace (- (tau * vdot (d_normal d) (d_normal d)) / (2 * tau)) with (- vdot (d_normal d) (d_normal d) / (2 * 1)) by (field; lra).
    replace ((2 * PI * tau) ^ 3) with ((2 * PI * 1) ^ 3 * tau ^ 3) by ring. pose proof PI_RGT_0 as PP.
    assert (T3 : sqrt (tau ^ 3) = sqrt tau ^ 3). { rewrite <- (sqrt_Rsqr (sqrt tau ^ 3)) by (apply pow_le, sqrt_pos). f_equal. unfold Rsqr. rewrite <- Rpow_mult_distr, sqrt_sqrt by lra. reflexivity. }
    rewrite sqrt_mult by (apply pow_le; nra). rewrite T3. pose proof (sqrt_lt_R0 tau T) as ST. assert (0 < sqrt ((2 * PI * 1) ^ 3)) by (apply sqrt_lt_R0, pow_lt; nra). field. split; lra.
  - intros U. unfold diffuse, delta_R. destruct (Rlt_dec _ _) as [|_]; [lra|]. unfold sample_gamma in GA |- *. do 3 eexists. split; [reflexivity|].
    assert (N : norm (d_gamma d * (1 / 2) / zeta p * cos (d_phi d) * sin (acos (1 - 2 * d_w d)), d_gamma d * (1 / 2) / zeta p * sin (d_phi d) * sin (acos (1 - 2 * d_w d)), d_gamma d * (1 / 2) / zeta p * cos (acos (1 - 2 * d_w d))) = d_gamma d / (2 * zeta p)).
    { unfold norm. rewrite GA. apply sqrt_pow2. apply Rdiv_le_0_compat; lra. }
    rewrite N. split; [reflexivity|]. split; [rewrite cos_acos by lra; field; lra|].
    exists (d_gamma d * (1 / 2) / zeta p * sin (acos (1 - 2 * d_w d))). split; [|split; ring]. apply Rmult_le_pos; [apply Rdiv_le_0_compat; lra|]. pose proof (acos_bound (1 - 2 * d_w d)). apply sin_ge_0; lra.
  - unfold delta_R. destruct (Rlt_dec _ _); [|exact GA]. rewrite dot_scale, dot_scale_r, <- Rmult_assoc, sqrt_sqrt by lra. reflexivity.
Qed.
(** The density of the distance from the nucleus, r = g/(2 zeta), dg = 2 zeta dr, and its integral. *)
Definition gamma3 (x : R) : R := x ^ 2 * exp (- x) / 2.
Lemma gamma_prim x : is_derive (fun x => 1 - exp (- x) * (x ^ 2 + 2 * x + 2) / 2) x (gamma3 x).
Proof. unfold gamma3. auto_derive; [trivial|]. field. Qed.
Lemma gamma3_RInt a b : RInt gamma3 a b = (1 - exp (- b) * (b ^ 2 + 2 * b + 2) / 2) - (1 - exp (- a) * (a ^ 2 + 2 * a + 2) / 2).
Proof.
  apply is_RInt_unique. apply (is_RInt_derive (fun x => 1 - exp (- x) * (x ^ 2 + 2 * x + 2) / 2)).
  - intros x _. apply gamma_prim.
  - intros x _. unfold gamma3. apply (ex_derive_continuous (fun x => x ^ 2 * exp (- x) / 2)). auto_derive. trivial.
Qed.
Lemma tail_bound x : 1 <= x -> 0 <= exp (- x) * (x ^ 2 + 2 * x + 2) / 2 <= 15 * / x.
Proof.
  intros X. rewrite exp_Ropp. pose proof (exp_pos x) as E. assert (H : x ^ 3 / 6 <= exp x).
  { pose proof (exp_ge_taylor x 3 ltac:(lra)) as H. cbn [sum_f_R0 fact Nat.mul Nat.add INR] in H. simpl in H.
    assert (0 <= x ^ 2) by nra. assert (0 <= x ^ 3) by (apply pow_le; lra). lra. }
  assert (P : 0 < / exp x) by (apply Rinv_0_lt_compat, E). split; [nra|].
  apply Rmult_le_reg_r with (x * exp x); [nra|]. replace (/ exp x * (x ^ 2 + 2 * x + 2) / 2 * (x * exp x)) with (x * (x ^ 2 + 2 * x + 2) / 2) by (field; lra).
  replace (15 * / x * (x * exp x)) with (15 * exp x) by (field; lra). nra.
Qed.
Lemma gamma3_mass : is_lim (fun b => RInt gamma3 0 b) p_infty 1.
Proof.
  apply is_lim_ext with (fun b => 1 - exp (- b) * (b ^ 2 + 2 * b + 2) / 2).
  { intros b. rewrite gamma3_RInt. replace (- 0) with 0 by ring. rewrite exp_0. field. }
  evar_last; [apply (is_lim_minus' (fun _ => 1) (fun b => exp (- b) * (b ^ 2 + 2 * b + 2) / 2)); [apply is_lim_const|]|apply f_equal with (f := Finite); apply Rminus_0_r].
  apply (is_lim_le_le_loc (fun _ => 0) (fun b => 15 * / b)).
  - exists 1. intros b B. apply tail_bound. lra.
  - apply is_lim_const.
  - evar_last; [apply (is_lim_scal_l (fun b => / b) 15 p_infty 0)|].
    + evar_last; [apply is_lim_inv; [apply is_lim_id|discriminate]|reflexivity].
    + cbn. f_equal. ring.
Qed.
Theorem C81_slater : forall n z, 0 < z -> (forall x, let r := norm (vsub x n) in 4 * PI * r ^ 2 * slater n z x = 2 * z * gamma3 (2 * z * r)) /\
  is_lim (fun b => RInt (fun r => 2 * z * gamma3 (2 * z * r)) 0 b) p_infty 1.
Proof.
  intros n z Z. split.
  - intros x r. unfold slater, gamma3. fold r. replace (- 2 * z * r) with (- (2 * z * r)) by ring. field. apply PI_neq0.
  - apply is_lim_ext with (fun b => RInt gamma3 0 (2 * z * b)).
    + intros b. transitivity (RInt gamma3 (2 * z * 0 + 0) (2 * z * b + 0)); [f_equal; ring|]. rewrite <- RInt_comp_lin.
      * apply RInt_ext. intros x _. unfold scal; cbn; unfold mult; cbn. rewrite Rplus_0_r. reflexivity.
      * exists ((1 - exp (- (2 * z * b + 0)) * ((2 * z * b + 0) ^ 2 + 2 * (2 * z * b + 0) + 2) / 2) - (1 - exp (- (2 * z * 0 + 0)) * ((2 * z * 0 + 0) ^ 2 + 2 * (2 * z * 0 + 0) + 2) / 2)).
        apply (is_RInt_derive (fun x => 1 - exp (- x) * (x ^ 2 + 2 * x + 2) / 2)); intros x _; [apply gamma_prim|]. unfold gamma3. apply (ex_derive_continuous (fun x => x ^ 2 * exp (- x) / 2)). auto_derive. trivial.
    + apply (is_lim_comp (fun b => RInt gamma3 0 b) (fun b => 2 * z * b) p_infty 1 p_infty gamma3_mass).
      * evar_last; [apply (is_lim_scal_l (fun b => b) (2 * z) p_infty p_infty), is_lim_id|]. unfold Rbar_mult, Rbar_mult'. destruct (Rle_dec 0 (2 * z)) as [L|L]; [|lra]. destruct (Rle_lt_or_eq_dec 0 (2 * z) L); [reflexivity|lra].
      * exists 0. intros b _. discriminate.
Qed.

(** ** Acceptance *)
Fixpoint rprod (l : list R) : R := match l with [] => 1 | x :: l' => x * rprod l' end.
Lemma exp_rsum {A} (f g : A -> R) l : (forall x, In x l -> exp (f x) = g x) -> exp (rsum (map f l)) = rprod (map g l).
Proof.
  induction l as [|x l IH]; intros H; cbn; [apply exp_0|]. rewrite exp_plus, H by (left; reflexivity). f_equal. apply IH. intros y Y. apply H. right. exact Y.
Qed.
Lemma all_some {A B} (f : A -> option B) l r : all (map f l) = Some r -> length r = length l /\ forall b, In b r -> exists a, In a l /\ f a = Some b.
Proof.
  revert r. induction l as [|a l IH]; intros r H; cbn in H.
  - injection H as <-. split; [reflexivity|]. intros b [].
  - destruct (f a) as [b|] eqn:F; [|discriminate]. cbn in H. destruct (all (map f l)) as [r'|]; [|discriminate]. cbn in H. injection H as <-. destruct (IH r' eq_refl) as [E I]. split; [cbn; congruence|].
    intros c [<-|C]; [exists a; split; [left; reflexivity|exact F]|]. destruct (I c C) as (x & X1 & X2). exists x. split; [right; exact X1|exact X2].
Qed.

Lemma clip01_range x : 0 <= clip01 x <= 1.
Proof. unfold clip01. split; [apply Rmax_l|]. apply Rmax_lub; [lra|apply Rmin_r]. Qed.
Lemma clip01_min x : 0 <= x -> clip01 x = Rmin x 1.
Proof. intros X. unfold clip01. apply Rmax_right. apply Rmin_glb; lra. Qed.
Lemma ln_ratio p p' : p <> 0 -> p' <> 0 -> exp (2 * (ln (Rabs p') - ln (Rabs p))) = p' ^ 2 / p ^ 2.
Proof.
  intros P P'. assert (A : 0 < Rabs p) by (apply Rabs_pos_lt, P). assert (A' : 0 < Rabs p') by (apply Rabs_pos_lt, P').
  replace (2 * (ln (Rabs p') - ln (Rabs p))) with (ln (Rabs p') + ln (Rabs p') + - (ln (Rabs p) + ln (Rabs p))) by ring. rewrite !exp_plus, exp_Ropp, exp_plus, !exp_ln by assumption.
  replace (Rabs p' * Rabs p') with (p' ^ 2) by (rewrite <- (pow2_abs p'); ring). replace (Rabs p * Rabs p) with (p ^ 2) by (rewrite <- (pow2_abs p); ring). reflexivity.
Qed.

Section Walk.
Variable erfc : R -> R.
Hypothesis erfc_range : forall x, 0 < erfc x < 2.
Variable nuclei : list vec.
Variable charges : list R.
Variable tau : R.
Hypothesis T : 0 < tau.
Variable psi : list vec -> R.
Variable velocity : list vec -> list vec.
Variable local_energy : list vec -> R.

(** Specification: the density of the proposal R' from R (all electrons move independently). *)
Definition electron_density (x v y : vec) : R := match prep1 erfc nuclei charges tau x v with Some p => move_density p tau y | None => 0 end.
Fixpoint density (xs V ys : list vec) : R :=
  match xs, V, ys with
  | x :: xs', v :: V', y :: ys' => electron_density x v y * density xs' V' ys'
  | _, _, _ => 1
  end.
Notation proposal xs ds := (from_orig erfc nuclei charges tau xs (velocity xs) ds).
Notation stepper := (step erfc nuclei charges tau psi velocity local_energy).

Lemma G_product : forall xs V ps ys, all (map (fun x => prep1 erfc nuclei charges tau (fst x) (snd x)) (combine xs V)) = Some ps -> length ys = length ps ->
  exp (rsum (map (fun x => G_to (fst x) tau (snd x)) (combine ps ys))) = density xs V ys /\ 0 < density xs V ys.
Proof.
  induction xs as [|x xs IH]; intros V ps ys H L.
  - cbn in H. injection H as <-. cbn. split; [apply exp_0|lra].
  - destruct V as [|v V]; [cbn in H; injection H as <-; cbn; split; [apply exp_0|lra]|]. cbn [combine map fst snd] in H. cbn [all] in H.
    destruct (prep1 erfc nuclei charges tau x v) as [p|] eqn:P; [|discriminate]. cbn [obind] in H.
    destruct (all (map _ (combine xs V))) as [ps'|] eqn:A; [|discriminate]. cbn [obind] in H. injection H as <-.
    destruct ys as [|y ys]; [discriminate|]. cbn in L. injection L as L. specialize (IH V ps' ys A L) as [IH1 IH2].
    cbn [combine map fst snd rsum fold_right density]. unfold electron_density. rewrite P. rewrite exp_plus. unfold rsum in IH1. rewrite IH1.
    destruct (G_density erfc nuclei charges tau T erfc_range x v p y P) as [G1 G2]. rewrite G2. split; [reflexivity|]. apply Rmult_lt_0_compat; assumption.
Qed.
Lemma from_orig_facts xs V ds ys Gf dR : length ds = length xs -> length V = length xs -> from_orig erfc nuclei charges tau xs V ds = Some (ys, Gf, dR) ->
  length ys = length xs /\ exp Gf = density xs V ys /\ 0 < density xs V ys /\ 0 <= dR.
Proof.
  intros LD LV. unfold from_orig. destruct (all _) as [ps|] eqn:A; [|discriminate]. cbn [obind]. intros H. injection H as H1 H2 H3.
  pose proof (all_some _ _ _ A) as [E _]. rewrite combine_length, LV, Nat.min_id in E.
  assert (L1 : length ys = length xs) by (rewrite <- H1, map_length, combine_length, E, LD; apply Nat.min_id). split; [exact L1|].
  rewrite <- H2. rewrite H1. destruct (G_product xs V ps ys A ltac:(congruence)) as [G1 G2]. split; [exact G1|]. split; [exact G2|]. rewrite <- H3. apply sqrt_pos.
Qed.
Lemma from_updated_facts xs ys V Gb : length ys = length xs -> length V = length ys -> from_updated erfc nuclei charges tau xs ys V = Some Gb -> exp Gb = density ys V xs.
Proof.
  intros L LV. unfold from_updated. destruct (all _) as [ps|] eqn:A; [|discriminate]. cbn [obind]. intros H. injection H as <-.
  pose proof (all_some _ _ _ A) as [E _]. rewrite combine_length, LV, Nat.min_id in E. apply (G_product ys V ps xs A). congruence.
Qed.
Lemma from_orig_prep xs V ds : from_orig erfc nuclei charges tau xs V ds <> None <-> all (map (fun x => prep1 erfc nuclei charges tau (fst x) (snd x)) (combine xs V)) <> None.
Proof. unfold from_orig. destruct (all _); cbn; split; intros; congruence. Qed.

Hypothesis velocity_shape : forall r, length (velocity r) = length r.

(** The rate: zero across the node; otherwise the Metropolis-Hastings rate for the target
    psi^2 and the proposal's density, times 1.1^(age - 50) once the walker is older than 50. *)
Lemma rate_formula xs age e ds u off est alpha pair ys Gf dR ds' zs Gf' dR' :
  length ds = length xs -> proposal xs ds = Some (ys, Gf, dR) -> proposal ys ds' = Some (zs, Gf', dR') -> psi xs <> 0 -> psi ys <> 0 ->
  o_rate (stepper xs age e ds u off est alpha pair) =
    (if Rlt_dec (psi xs * psi ys) 0 then 0
     else Rmin (psi ys ^ 2 * density ys (velocity ys) xs / (psi xs ^ 2 * density xs (velocity xs) ys) * Rpower (11 / 10) (Rmax (age - 50) 0)) 1).
Proof.
  intros LD P P' N0 N1. unfold step. rewrite P. cbn [o_rate]. unfold acceptance. destruct (Rlt_dec _ 0) as [|NN]; [reflexivity|].
  destruct (from_orig_facts _ _ _ _ _ _ LD (velocity_shape xs) P) as (L1 & GF & GP & _).
  assert (A : all (map (fun x => prep1 erfc nuclei charges tau (fst x) (snd x)) (combine ys (velocity ys))) <> None) by (apply (from_orig_prep ys (velocity ys) ds'); congruence).
  destruct (from_updated erfc nuclei charges tau xs ys (velocity ys)) as [Gb|] eqn:B.
  2:{ exfalso. unfold from_updated in B. destruct (all _); [discriminate|]. apply A. reflexivity. }
  pose proof (from_updated_facts xs ys (velocity ys) Gb L1 (velocity_shape ys) B) as GB. cbn [obind].
  destruct (Req_EM_T (psi ys) 0) as [|_]; [contradiction|]. destruct (Req_EM_T (psi xs) 0) as [|_]; [contradiction|]. cbn [num].
  rewrite clip01_min by (left; apply exp_pos). f_equal. unfold Rminus at 1. rewrite !exp_plus, exp_Ropp, ln_ratio, GB, GF by assumption.
  unfold log_boost, Rpower. rewrite (Rmult_comm (ln (11 / 10))). assert (psi xs ^ 2 <> 0) by (apply pow_nonzero, N0). field. lra.
Qed.
Theorem C81_rate : forall xs age e ds u off est alpha pair ys Gf dR ds' zs Gf' dR',
  length ds = length xs -> proposal xs ds = Some (ys, Gf, dR) -> proposal ys ds' = Some (zs, Gf', dR') -> psi xs <> 0 -> psi ys <> 0 ->
  o_rate (stepper xs age e ds u off est alpha pair) =
    (if Rlt_dec (psi xs * psi ys) 0 then 0
     else Rmin (psi ys ^ 2 * density ys (velocity ys) xs / (psi xs ^ 2 * density xs (velocity xs) ys) * Rpower (11 / 10) (Rmax (age - 50) 0)) 1).
Proof. exact rate_formula. Qed.
(** Detailed balance for psi^2, of walkers that moved during the last 50 steps. *)
Theorem C81_balance : forall xs age e ds u off est alpha pair ys Gf dR age' e' ds' u' off' est' alpha' pair' Gf' dR',
  age <= 50 -> age' <= 50 -> length ds = length xs -> length ds' = length ys ->
  proposal xs ds = Some (ys, Gf, dR) -> proposal ys ds' = Some (xs, Gf', dR') -> psi xs <> 0 -> psi ys <> 0 ->
  psi xs ^ 2 * density xs (velocity xs) ys * o_rate (stepper xs age e ds u off est alpha pair) =
  psi ys ^ 2 * density ys (velocity ys) xs * o_rate (stepper ys age' e' ds' u' off' est' alpha' pair').
Proof.
  intros xs age e ds u off est alpha pair ys Gf dR age' e' ds' u' off' est' alpha' pair' Gf' dR' A A' LD LD' P P' N N'.
  destruct (from_orig_facts _ _ _ _ _ _ LD (velocity_shape xs) P) as (L1 & _ & D1 & _). destruct (from_orig_facts _ _ _ _ _ _ LD' (velocity_shape ys) P') as (L2 & _ & D2 & _).
  rewrite (rate_formula xs age e ds u off est alpha pair ys Gf dR ds' xs Gf' dR') by assumption.
  rewrite (rate_formula ys age' e' ds' u' off' est' alpha' pair' xs Gf' dR' ds ys Gf dR) by assumption.
  rewrite (Rmult_comm (psi ys) (psi xs)). destruct (Rlt_dec _ 0); [ring|].
  rewrite !Rmax_right by lra. rewrite Rpower_O by lra.
  assert (Q : 0 < psi xs ^ 2) by (assert (psi xs ^ 2 <> 0) by (apply pow_nonzero, N); pose proof (pow2_ge_0 (psi xs)); lra).
  assert (Q' : 0 < psi ys ^ 2) by (assert (psi ys ^ 2 <> 0) by (apply pow_nonzero, N'); pose proof (pow2_ge_0 (psi ys)); lra).
  set (a := psi xs ^ 2 * density xs (velocity xs) ys). set (b := psi ys ^ 2 * density ys (velocity ys) xs). rewrite !Rmult_1_r.
  assert (0 < a) by (apply Rmult_lt_0_compat; assumption). assert (0 < b) by (apply Rmult_lt_0_compat; assumption).
  destruct (Rle_dec b a) as [L|L].
  - rewrite Rmin_left, Rmin_right; [field; lra| |].
    + apply Rmult_le_reg_r with b; [lra|]. field_simplify; lra.
    + apply Rmult_le_reg_r with a; [lra|]. field_simplify; lra.
  - rewrite Rmin_right, Rmin_left; [field; lra| |].
    + apply Rmult_le_reg_r with b; [lra|]. field_simplify; lra.
    + apply Rmult_le_reg_r with a; [lra|]. field_simplify; lra.
Qed.
Lemma acceptance_range p p' G Gf age r : acceptance p p' G Gf age = Some r -> 0 <= r <= 1 /\ (0 < r -> p <> 0 -> 0 < p * p').
Proof.
  unfold acceptance. destruct (Rlt_dec _ 0) as [|NN]; [intros E; injection E as <-; split; [lra|lra]|]. destruct G as [g|]; [|discriminate]. cbn [obind].
  destruct (Req_EM_T p' 0) as [Z|Z]; [destruct (Req_EM_T p 0); [discriminate|]; intros E; injection E as <-; split; lra|].
  destruct (Req_EM_T p 0) as [Z0|Z0]; intros E; injection E as <-; [split; [lra|]; intros; contradiction|]. split; [apply clip01_range|]. intros _ _.
  assert (p * p' <> 0) by (apply Rmult_integral_contrapositive; split; assumption). lra.
Qed.
(** The node is never crossed. *)
Theorem C81_fixed_node : forall xs age e ds u off est alpha pair, 0 <= u -> psi xs <> 0 ->
  0 < psi xs * psi (o_position (stepper xs age e ds u off est alpha pair)).
Proof.
  intros xs age e ds u off est alpha pair U N. assert (S : 0 < psi xs * psi xs) by (assert (psi xs * psi xs <> 0) by (apply Rmult_integral_contrapositive; split; assumption); pose proof (Rle_0_sqr (psi xs)); unfold Rsqr in *; lra).
  unfold step. destruct (from_orig _ _ _ _ _ _ _) as [[[ys Gf] dR]|]; cbn [o_position]; [|exact S].
  destruct (acceptance _ _ _ _ _) as [r|] eqn:A; [|exact S]. destruct (Rlt_dec u r) as [L|L]; [|exact S]. apply acceptance_range in A as [A1 A2]. apply A2; [lra|exact N].
Qed.
(** What a step returns: the rate is a probability; the walker is at the proposal if the
    uniform number is below it, with age 1, and otherwise where it was, one step older; its
    energy is the local energy of where it is; the averaged energy is the expectation. *)
Theorem C81_outcome : forall xs age e ds u off est alpha pair, e = local_energy xs -> 0 <= u ->
  let o := stepper xs age e ds u off est alpha pair in
  0 <= o_rate o <= 1 /\ 0 <= o_delta o /\ o_energy o = local_energy (o_position o) /\
  ((o_position o = xs /\ o_age o = age + 1 /\ o_rate o <= u) \/
   (exists ys Gf dR, proposal xs ds = Some (ys, Gf, dR) /\ o_position o = ys /\ o_age o = 1 /\ u < o_rate o)) /\
  (forall ys Gf dR, proposal xs ds = Some (ys, Gf, dR) -> from_updated erfc nuclei charges tau xs ys (velocity ys) <> None -> psi xs <> 0 ->
    o_delta o = dR /\ o_average o = o_rate o * local_energy ys + (1 - o_rate o) * local_energy xs).
Proof.
  intros xs age e ds u off est alpha pair E U o. unfold o, step. destruct (from_orig _ _ _ _ _ _ _) as [[[ys Gf] dR]|] eqn:P.
  2:{ cbn. split; [lra|]. split; [lra|]. split; [exact E|]. split; [left; repeat split; lra|]. intros; discriminate. }
  assert (D : 0 <= dR). { unfold from_orig in P. destruct (all _); [|discriminate]. cbn [obind] in P. injection P as _ _ <-. apply sqrt_pos. }
  cbn [o_rate o_delta o_position o_energy o_age o_average]. destruct (acceptance _ _ _ _ _) as [r|] eqn:A.
  - apply acceptance_range in A as [A1 A2]. cbn [num obind]. split; [exact A1|]. split; [exact D|]. destruct (Rlt_dec u r) as [L|L].
    + split; [reflexivity|]. split; [right; exists ys, Gf, dR; repeat split; exact L|]. intros ? ? ? Q _ _. injection Q as <- <- <-. split; [reflexivity|]. rewrite E. ring.
    + split; [exact E|]. split; [left; repeat split; lra|]. intros ? ? ? Q _ _. injection Q as <- <- <-. split; [reflexivity|]. rewrite E. ring.
  - cbn [num obind]. split; [lra|]. split; [exact D|]. split; [exact E|]. split; [left; repeat split; lra|]. intros ? ? ? Q B N. injection Q as <- <- <-. exfalso.
    unfold acceptance in A. destruct (Rlt_dec _ 0); [discriminate|]. destruct (from_updated _ _ _ _ _ _ _); [|contradiction]. cbn [obind] in A. destruct (Req_EM_T (psi ys) 0); [destruct (Req_EM_T (psi xs) 0); [contradiction|discriminate]|]. destruct (Req_EM_T (psi xs) 0); discriminate.
Qed.

(** ** The weight *)
Lemma branch_alpha vn cn e off est alpha n : 0 <= alpha -> exists b, branch_val tau vn cn e off est alpha n None = Some b /\
  Rabs (b - (off - est)) <= alpha * sqrt (INR n / tau) /\ (Rabs (est - e) <= alpha * sqrt (INR n / tau) -> b = off - e).
Proof.
  intros A. unfold branch_val, clip_energy. destruct (Rlt_dec alpha 0) as [|_]; [lra|]. eexists. split; [reflexivity|]. set (c := alpha * sqrt (INR n / tau)).
  assert (C : 0 <= c) by (apply Rmult_le_pos; [exact A|apply sqrt_pos]). unfold sign. set (d := est - e).
  split.
  - match goal with |- Rabs ?x <= _ => replace x with ((if Rlt_dec d 0 then -1 else if Rlt_dec 0 d then 1 else 0) * Rmin c (Rabs d)) by ring end.
    pose proof (Rmin_l c (Rabs d)). assert (0 <= Rmin c (Rabs d)) by (apply Rmin_glb; [exact C|apply Rabs_pos]). destruct (Rlt_dec d 0); [|destruct (Rlt_dec 0 d)]; apply Rabs_le; lra.
  - intros L. rewrite (Rmin_right c (Rabs d)) by exact L. replace e with (est - d) by (unfold d; ring). unfold Rabs. destruct (Rlt_dec d 0), (Rcase_abs d); try lra; destruct (Rlt_dec 0 d); lra.
Qed.
(** With the default cutoff (alpha >= 0, no clipping pair) the logarithm of the weight (per
    unit of time) never leaves offset - estimator by more than alpha sqrt(n/tau), and while
    both local energies are within that of the estimator it is the offset minus the expected
    mean of the two. *)
Theorem C81_weight : forall xs age e ds u off est alpha ys Gf dR, 0 <= alpha -> proposal xs ds = Some (ys, Gf, dR) ->
  from_updated erfc nuclei charges tau xs ys (velocity ys) <> None -> psi xs <> 0 ->
  let o := stepper xs age e ds u off est alpha None in let c := alpha * sqrt (INR (length xs) / tau) in let r := o_rate o in
  Rabs (o_log_weight o - (off - est)) <= c /\
  (Rabs (est - e) <= c -> Rabs (est - local_energy ys) <= c -> o_log_weight o = off - (r * ((e + local_energy ys) / 2) + (1 - r) * e)).
Proof.
  intros xs age e ds u off est alpha ys Gf dR A P B N o c r. unfold r, o, step. rewrite P. cbn [o_log_weight o_rate].
  destruct (acceptance _ _ _ _ _) as [t|] eqn:Q.
  2:{ exfalso. unfold acceptance in Q. destruct (Rlt_dec _ 0); [discriminate|]. destruct (from_updated _ _ _ _ _ _ _); [|contradiction]. cbn [obind] in Q. destruct (Req_EM_T (psi ys) 0); [destruct (Req_EM_T (psi xs) 0); [contradiction|discriminate]|]. destruct (Req_EM_T (psi xs) 0); discriminate. }
  apply acceptance_range in Q as [Q _].
  destruct (branch_alpha (cnorm (velocity xs)) (clipped_norm nuclei charges tau xs (velocity xs)) e off est alpha (length xs) A) as (b & B1 & B2 & B3).
  destruct (branch_alpha (cnorm (velocity ys)) (clipped_norm nuclei charges tau ys (velocity ys)) (local_energy ys) off est alpha (length xs) A) as (b' & B1' & B2' & B3').
  rewrite B1, B1'. cbn [obind num]. fold c in B2, B3, B2', B3'. apply Rabs_le_between in B2. apply Rabs_le_between in B2'. split.
  - apply Rabs_le. split; nra.
  - intros C1 C2. rewrite (B3 C1), (B3' C2). field.
Qed.
(** With a clipping pair (lo <= hi) the weight is that of the energies clipped into it; with a
    negative alpha the deviation from the estimator is scaled by the ratio of the lengths of
    the limited and the full velocity, which is at most one. *)
Lemma clipped_shorter : forall xs V c, clipped_norm nuclei charges tau xs V = Some c -> 0 <= c <= cnorm V.
Proof.
  intros xs V c. unfold clipped_norm. destruct (all _) as [l|] eqn:A; [|discriminate]. cbn [obind]. intros H. injection H as <-. split; [apply sqrt_pos|]. unfold cnorm. apply sqrt_le_1_alt.
  revert V l A. induction xs as [|x xs IH]; intros V l A.
  - cbn in A. injection A as <-. unfold rsum. cbn [map fold_right]. clear. induction V as [|v V IV]; cbn [map fold_right]; [apply Rle_refl|]. pose proof (dot_pos v). lra.
  - destruct V as [|v V]; [cbn in A; injection A as <-; cbn; lra|]. cbn [combine map fst snd all] in A. cbv zeta in A.
    destruct (clip_velocity _ _ _ _ _) as [w|] eqn:W; [|discriminate]. cbn [obind] in A. destruct (all _) as [l'|] eqn:A'; [|discriminate]. cbn [obind] in A. injection A as <-. specialize (IH V l' A').
    cbn [map rsum fold_right]. unfold rsum in IH. apply Rplus_le_compat; [|exact IH].
    unfold clip_velocity in W. destruct (weight_control _ _ _ _) as [a|] eqn:WC; [|discriminate]. cbn [obind] in W. injection W as <-. rewrite dot_scale, dot_scale_r.
    assert (AA : 0 <= a). { unfold weight_control in WC. destruct (unit_of v) as [e1|] eqn:E1; [|discriminate]. destruct (unit_of (vsub x _)) as [e2|] eqn:E2; [|discriminate]. cbn [obind] in WC. injection WC as <-.
      apply unit_some in E1 as (_ & _ & E1 & _). apply unit_some in E2 as (_ & _ & E2 & _). pose proof (unit_dot _ _ E1 E2).
      assert (XX : forall q, 0 <= (if Req_EM_T q 0 then 0 else 1 / 10 / (4 / q ^ 2 + 1))); [|apply Rplus_le_le_0_compat; [nra|apply XX]].
      intros q. destruct (Req_EM_T q 0) as [_|NQ]; [apply Rle_refl|]. assert (QP : 0 < q ^ 2) by (assert (q ^ 2 <> 0) by (apply pow_nonzero, NQ); pose proof (pow2_ge_0 q); lra).
      apply Rdiv_le_0_compat; [lra|]. apply Rplus_le_lt_0_compat; [|lra]. apply Rdiv_le_0_compat; [lra|exact QP]. }
    pose proof (dot_pos v) as VV. destruct (factor_range (a * vdot v v * tau)) as (F & _); [apply Rmult_le_pos; [apply Rmult_le_pos|]; lra|].
    set (k := clip_factor (a * vdot v v * tau)) in *. clearbody k. set (w := vdot v v) in *. clearbody w. assert (k * k <= 1) by (clear - F; nra). clear - VV H. change (k * (k * w) <= w). assert (0 <= (1 - k * k) * w) by (apply Rmult_le_pos; lra). lra.
Qed.
Theorem C81_weight_bound : forall xs V e off est alpha n lo hi b, lo <= hi ->
  branch_val tau (cnorm V) (clipped_norm nuclei charges tau xs V) e off est alpha n (Some (lo, hi)) = Some b ->
  exists e', lo <= e' <= hi /\ (lo <= e <= hi -> e' = e) /\ Rabs (b - (off - est)) <= Rabs (est - e') /\ 0 <= (b - (off - est)) * (est - e').
Proof.
  intros xs V e off est alpha n lo hi b L. unfold branch_val. cbn [clip_energy]. set (e' := Rmin (Rmax e lo) hi). intros H. exists e'.
  split; [unfold e'; split; [apply Rmin_glb; [apply Rmax_r|exact L]|apply Rmin_r]|]. split; [intros [A B]; unfold e'; rewrite Rmax_left, Rmin_left by lra; reflexivity|].
  destruct (Rlt_dec alpha 0) as [A|A].
  - destruct (clipped_norm _ _ _ _ _) as [c|] eqn:C; [|discriminate]. cbn [obind] in H. destruct (Req_EM_T (cnorm V) 0) as [|NZ]; [discriminate|]. injection H as <-. apply clipped_shorter in C as [C1 C2].
    assert (VP : 0 < cnorm V) by lra. assert (Q : 0 <= c / cnorm V <= 1). { split; [apply Rdiv_le_0_compat; lra|]. apply Rmult_le_reg_r with (cnorm V); [exact VP|]. field_simplify; lra. }
    set (q := c / cnorm V) in *. replace (off - est + (est - e') * q - (off - est)) with ((est - e') * q) by ring. split; [rewrite Rabs_mult, (Rabs_right q) by lra; pose proof (Rabs_pos (est - e')); nra|]. replace ((est - e') * q * (est - e')) with (q * ((est - e') * (est - e'))) by ring. apply Rmult_le_pos; [lra|apply Rle_0_sqr].
  - injection H as <-. set (c := alpha * sqrt (INR n / tau)). assert (CP : 0 <= c) by (apply Rmult_le_pos; [lra|apply sqrt_pos]).
    replace (off - est + sign (est - e') * Rmin c (Rabs (est - e')) - (off - est)) with (sign (est - e') * Rmin c (Rabs (est - e'))) by ring. set (d := est - e').
    pose proof (Rmin_r c (Rabs d)). assert (0 <= Rmin c (Rabs d)) by (apply Rmin_glb; [exact CP|apply Rabs_pos]). unfold sign. destruct (Rlt_dec d 0); [|destruct (Rlt_dec 0 d)]; (split; [apply Rabs_le; lra|nra]).
Qed.

(** ** One electron after the other *)
Lemma acceptance_one_range p p' G Gf r : acceptance_one p p' G Gf = Some r -> 0 <= r <= 1 /\ (0 < r -> 0 < p * p').
Proof.
  unfold acceptance_one. destruct (Req_EM_T p 0) as [Z|Z].
  - destruct (Req_EM_T p' 0); [discriminate|]. intros E. injection E as <-. lra.
  - destruct (Req_EM_T p' 0); [intros E; injection E as <-; lra|]. intros E. injection E as <-. match goal with |- context[clip01 ?a] => pose proof (clip01_range a) end. destruct (Rlt_dec 0 (p * p')); split; intros; try lra. 
Qed.
Lemma put_length l i v : length (put l i v) = length l.
Proof. revert i. induction l as [|x l IH]; intros [|i]; cbn; [reflexivity|reflexivity|reflexivity|]. f_equal. apply IH. Qed.
Lemma put_nth l i v j : nth j (put l i v) vzero = (if Nat.eqb j i then (if Nat.ltb i (length l) then v else nth j l vzero) else nth j l vzero).
Proof.
  revert i j. induction l as [|x l IH]; intros [|i] [|j]; cbn; try reflexivity; try (destruct (Nat.eqb _ _); reflexivity). rewrite IH. reflexivity.
Qed.
Lemma put_put l i v w : put (put l i v) i w = put l i w.
Proof. revert i. induction l as [|x l IH]; intros [|i]; cbn; [reflexivity..|]. f_equal. apply IH. Qed.
Lemma put_same l i : put l i (nth i l vzero) = l.
Proof. revert i. induction l as [|x l IH]; intros [|i]; cbn; [reflexivity..|]. f_equal. apply IH. Qed.

Notation mover := (move_one erfc nuclei charges tau psi velocity).
(** A move of electron i leaves the others where they are; the walker takes it exactly when
    the uniform number is below the rate it adds to the sum. *)
Theorem C81_ebye_move : forall i d u s s', (i < length (l_position s))%nat -> 0 <= u -> mover i d u s = Some s' ->
  let rate := l_p s' - l_p s in
  exists p, prep1 erfc nuclei charges tau (nth i (l_position s) vzero) (nth i (l_velocity s) vzero) = Some p /\ 0 <= rate <= 1 /\
    length (l_position s') = length (l_position s) /\
    (forall j, j <> i -> nth j (l_position s') vzero = nth j (l_position s) vzero) /\
    nth i (l_position s') vzero = (if Rlt_dec u rate then diffuse p tau d else nth i (l_position s) vzero) /\
    l_velocity s' = (if Rlt_dec u rate then velocity (l_position s') else l_velocity s) /\
    l_delta s' - l_delta s = vdot (delta_R p tau d) (delta_R p tau d) /\ l_p_delta s' - l_p_delta s = rate * (l_delta s' - l_delta s) /\
    (u < rate -> 0 < psi (l_position s) * psi (l_position s')).
Proof.
  intros i d u s s' I U H rate. unfold move_one in H. destruct (prep1 _ _ _ _ _ _) as [p|] eqn:P; [|discriminate]. cbn [obind] in H.
  destruct (prep1 _ _ _ _ (nth i (put _ _ _) vzero) _) as [p'|]; [|discriminate]. cbn [obind] in H. destruct (acceptance_one _ _ _ _) as [r|] eqn:A; [|discriminate]. cbn [obind] in H. injection H as <-.
  cbn [l_position l_velocity l_p l_p_delta l_delta]. apply acceptance_one_range in A as [A1 A2]. assert (RR : rate = r) by (unfold rate; cbn; ring). exists p. rewrite !RR. clear rate RR.
  split; [reflexivity|]. split; [exact A1|]. destruct (Rlt_dec u r) as [L|L].
  - split; [apply put_length|]. split; [intros j J; rewrite put_nth; apply Nat.eqb_neq in J; rewrite J; reflexivity|]. split; [rewrite put_nth, Nat.eqb_refl; apply Nat.ltb_lt in I; rewrite I; reflexivity|].
    split; [reflexivity|]. split; [ring|]. split; [ring|]. intros _. apply A2. lra.
  - split; [reflexivity|]. split; [reflexivity|]. split; [reflexivity|]. split; [reflexivity|]. split; [ring|]. split; [ring|]. lra.
Qed.
(** Detailed balance of the move of electron i. *)
Theorem C81_ebye_balance : forall i d u s s' d' u' t t' p p',
  (i < length (l_position s))%nat -> l_velocity s = velocity (l_position s) -> l_velocity t = velocity (l_position t) ->
  let x := nth i (l_position s) vzero in let y := nth i (l_position t) vzero in
  l_position t = put (l_position s) i y ->
  prep1 erfc nuclei charges tau x (nth i (l_velocity s) vzero) = Some p -> diffuse p tau d = y ->
  prep1 erfc nuclei charges tau y (nth i (l_velocity t) vzero) = Some p' -> diffuse p' tau d' = x ->
  psi (l_position s) <> 0 -> psi (l_position t) <> 0 -> mover i d u s = Some s' -> mover i d' u' t = Some t' ->
  psi (l_position s) ^ 2 * move_density p tau y * (l_p s' - l_p s) = psi (l_position t) ^ 2 * move_density p' tau x * (l_p t' - l_p t).
Proof.
  intros i d u s s' d' u' t t' p p' I Vs Vt x y Et P D P' D' N N' M M'.
  assert (Es : put (l_position t) i x = l_position s) by (rewrite Et, put_put; apply put_same).
  unfold move_one in M, M'. fold x in M. fold y in M'. rewrite P in M. rewrite P' in M'. cbn [obind] in M, M'. rewrite D in M. rewrite D' in M'. rewrite <- Et in M. rewrite Es in M'. fold y in M. fold x in M'. rewrite <- Vt, P' in M. rewrite <- Vs, P in M'. cbn [obind] in M, M'.
  destruct (acceptance_one _ _ _ _) as [r|] eqn:A in M; [|discriminate]. destruct (acceptance_one _ _ _ _) as [r'|] eqn:A' in M'; [|discriminate]. cbn [obind] in M, M'. injection M as <-. injection M' as <-. cbn [l_p].
  replace (l_p s + r - l_p s) with r by ring. replace (l_p t + r' - l_p t) with r' by ring.
  destruct (G_density erfc nuclei charges tau T erfc_range _ _ _ y P) as [D1 G1]. destruct (G_density erfc nuclei charges tau T erfc_range _ _ _ x P') as [D2 G2].
  unfold acceptance_one in A, A'. destruct (Req_EM_T (psi (l_position s)) 0) as [|_]; [contradiction|]. destruct (Req_EM_T (psi (l_position t)) 0) as [|_]; [contradiction|].
  injection A as <-. injection A' as <-. rewrite (Rmult_comm (psi (l_position t)) (psi (l_position s))). destruct (Rlt_dec 0 _); [|ring]. rewrite !Rmult_1_r.
  rewrite !clip01_min by (left; apply exp_pos). unfold Rminus at 1 3. rewrite !exp_plus, !exp_Ropp, !ln_ratio, G1, G2 by assumption.
  assert (Q : 0 < psi (l_position s) ^ 2) by (assert (psi (l_position s) ^ 2 <> 0) by (apply pow_nonzero, N); pose proof (pow2_ge_0 (psi (l_position s))); lra).
  assert (Q' : 0 < psi (l_position t) ^ 2) by (assert (psi (l_position t) ^ 2 <> 0) by (apply pow_nonzero, N'); pose proof (pow2_ge_0 (psi (l_position t))); lra).
  set (f := psi (l_position s) ^ 2) in *. set (g := psi (l_position t) ^ 2) in *. set (m := move_density p tau y) in *. set (m' := move_density p' tau x) in *.
  replace (g / f * m' * / m) with (g * m' / (f * m)) by (field; lra). replace (f / g * m * / m') with (f * m / (g * m')) by (field; lra).
  assert (0 < f * m) by (apply Rmult_lt_0_compat; assumption). assert (0 < g * m') by (apply Rmult_lt_0_compat; assumption). set (a := f * m) in *. set (b := g * m') in *.
  destruct (Rle_dec b a) as [L|L].
  - rewrite Rmin_left, Rmin_right; [field; lra| |].
    + apply Rmult_le_reg_r with b; [lra|]. field_simplify; lra.
    + apply Rmult_le_reg_r with a; [lra|]. field_simplify; lra.
  - rewrite Rmin_right, Rmin_left; [field; lra| |].
    + apply Rmult_le_reg_r with b; [lra|]. field_simplify; lra.
    + apply Rmult_le_reg_r with a; [lra|]. field_simplify; lra.
Qed.
(** The whole sweep: the velocities returned are those of the positions returned, the node is
    not crossed, the mean acceptance is in [0, 1] and the effective time step in [0, tau]. *)
Lemma move_all_facts : forall rs i s s', psi (l_position s) <> 0 -> l_velocity s = velocity (l_position s) -> (forall r, In r rs -> 0 <= snd r) ->
  (i + length rs <= length (l_position s))%nat -> move_all erfc nuclei charges tau psi velocity i rs s = Some s' ->
  length (l_position s') = length (l_position s) /\ l_velocity s' = velocity (l_position s') /\ 0 < psi (l_position s) * psi (l_position s') /\
  0 <= l_p s' - l_p s <= INR (length rs) /\ 0 <= l_p_delta s' - l_p_delta s <= l_delta s' - l_delta s /\
  (forall j, (j < i \/ i + length rs <= j)%nat -> nth j (l_position s') vzero = nth j (l_position s) vzero).
Proof.
  induction rs as [|[d u] rs IH]; intros i s s' N V U I H.
  - cbn in H. injection H as <-. cbn [length INR]. assert (0 < psi (l_position s) * psi (l_position s)) by (assert (psi (l_position s) * psi (l_position s) <> 0) by (apply Rmult_integral_contrapositive; split; assumption); pose proof (Rle_0_sqr (psi (l_position s))); unfold Rsqr in *; lra).
    repeat split; try assumption; try lra.
  - cbn [move_all] in H. destruct (move_one _ _ _ _ _ _ _ _ _ _) as [m|] eqn:M; [|discriminate]. cbn [obind] in H. cbn [length] in I.
    destruct (C81_ebye_move i d u s m ltac:(lia) (U (d, u) (or_introl eq_refl)) M) as (p & _ & R1 & L1 & O1 & N1 & V1 & D1 & D2 & S1).
    assert (Sg : 0 < psi (l_position s) * psi (l_position m)).
    { destruct (Rlt_dec u (l_p m - l_p s)) as [L|L]; [apply S1, L|]. replace (l_position m) with (l_position s).
      - assert (psi (l_position s) * psi (l_position s) <> 0) by (apply Rmult_integral_contrapositive; split; assumption); pose proof (Rle_0_sqr (psi (l_position s))); unfold Rsqr in *; lra.
      - apply (nth_ext _ _ vzero vzero); [congruence|]. intros j _. destruct (Nat.eq_dec j i) as [->|J]; [symmetry; exact N1|symmetry; apply O1, J]. }
    assert (Nm : psi (l_position m) <> 0) by (intros Z; rewrite Z in Sg; lra).
    assert (Vm : l_velocity m = velocity (l_position m)).
    { rewrite V1. destruct (Rlt_dec u (l_p m - l_p s)) as [L|L]; [reflexivity|]. rewrite V. f_equal. apply (nth_ext _ _ vzero vzero); [congruence|]. intros j _. destruct (Nat.eq_dec j i) as [->|J]; [symmetry; exact N1|symmetry; apply O1, J]. }
    destruct (IH (S i) m s' Nm Vm (fun r R => U r (or_intror R)) ltac:(lia) H) as (L2 & V2 & S2 & P2 & E2 & O2).
    split; [congruence|]. split; [exact V2|]. split.
    { assert (Q : 0 < (psi (l_position s) * psi (l_position m)) * (psi (l_position m) * psi (l_position s'))) by (apply Rmult_lt_0_compat; assumption).
      assert (QQ : 0 < psi (l_position m) ^ 2) by (assert (psi (l_position m) ^ 2 <> 0) by (apply pow_nonzero, Nm); pose proof (pow2_ge_0 (psi (l_position m))); lra).
      apply Rmult_lt_reg_r with (psi (l_position m) ^ 2); [exact QQ|]. rewrite Rmult_0_l. eapply Rlt_le_trans; [exact Q|]. right. ring. }
    split; [cbn [length]; rewrite S_INR; lra|]. split.
    { pose proof (dot_pos (delta_R p tau d)) as W. rewrite <- D1 in W. set (q := l_p m - l_p s) in *. set (w := l_delta m - l_delta s) in *. assert (0 <= q * w <= w) by (split; [apply Rmult_le_pos; lra|]; assert (0 <= (1 - q) * w) by (apply Rmult_le_pos; lra); lra). unfold w in *. lra. }
    intros j J. cbn [length] in J. rewrite O2 by lia. apply O1. lia.
Qed.
Theorem C81_ebye_sweep : forall xs rs s mean tau_eff, psi xs <> 0 -> (forall r, In r rs -> 0 <= snd r) -> length rs = length xs -> xs <> [] ->
  ebye erfc nuclei charges tau psi velocity xs rs = Some (s, mean, tau_eff) ->
  length (l_position s) = length xs /\ l_velocity s = velocity (l_position s) /\ 0 < psi xs * psi (l_position s) /\ 0 <= mean <= 1 /\
  (0 < l_delta s -> 0 <= tau_eff <= tau /\ tau_eff = tau * (l_p_delta s / l_delta s)).
Proof.
  intros xs rs s mean te N U L NE H. unfold ebye in H. destruct (move_all _ _ _ _ _ _ _ _ _) as [s'|] eqn:M; [|discriminate]. cbn [obind] in H. injection H as <- <- <-.
  destruct (move_all_facts rs 0 {| l_position := xs; l_velocity := velocity xs; l_p := 0; l_p_delta := 0; l_delta := 0 |} s' N eq_refl U ltac:(cbn; lia) M) as (A & B & C & D & E & _). cbn [l_position l_p l_p_delta l_delta] in *.
  split; [exact A|]. split; [exact B|]. split; [exact C|]. rewrite L in D.
  assert (NP : 0 < INR (length xs)) by (destruct xs; [contradiction|]; apply (lt_INR 0); cbn; lia). split.
  - split; [apply Rdiv_le_0_compat; lra|]. apply Rmult_le_reg_r with (INR (length xs)); [exact NP|]. field_simplify; lra.
  - intros P. assert (Q : 0 <= l_p_delta s' / l_delta s' <= 1). { split; [apply Rdiv_le_0_compat; lra|]. apply Rmult_le_reg_r with (l_delta s'); [exact P|]. field_simplify; lra. }
    replace (tau * l_p_delta s' / l_delta s') with (tau * (l_p_delta s' / l_delta s')) by (field; lra). split; [|reflexivity]. split; [apply Rmult_le_pos; lra|]. set (k := l_p_delta s' / l_delta s') in *. clearbody k. nra.
Qed.
End Walk.

(** ** Radial velocities *)
(** Wherever an electron's velocity points exactly along the line to its nearest nucleus (or
    away from it), or vanishes, the walker does not move, whatever is drawn: its weight stays
    and its averaged energy is reported as 0. *)
Lemma radial_unit pos n u : unit_of (vsub pos n) = Some u -> forall t, vsub (vscale t u) (vscale (vdot (vscale t u) u) u) = vzero.
Proof.
  intros U t. apply unit_some in U as (_ & _ & UU & _). rewrite dot_scale, UU. destruct u as [[? ?] ?]. unfold vsub, vscale, vzero. f_equal; [f_equal|]; ring.
Qed.
Lemma unit_zero : unit_of vzero = None.
Proof. unfold unit_of, norm, vdot, vzero. replace (0 * 0 + 0 * 0 + 0 * 0) with 0 by ring. rewrite sqrt_0. destruct (Req_EM_T 0 0); [reflexivity|contradiction]. Qed.
Lemma radial_prep erfc nuclei charges tau pos t : prep1 erfc nuclei charges tau pos (vscale t (vsub pos (nth (nearest pos nuclei) nuclei vzero))) = None.
Proof.
  unfold prep1, prepare. set (n := nth (nearest pos nuclei) nuclei vzero). unfold clip_velocity. destruct (weight_control _ _ _ _) as [w|]; [|reflexivity]. cbn [obind].
  set (c := clip_factor _). clearbody c. assert (D : do_drift pos n (vscale c (vscale t (vsub pos n))) tau = None); [|rewrite D; reflexivity].
  unfold do_drift. destruct (unit_of (vsub pos n)) as [u|] eqn:U; [|reflexivity]. cbn [obind]. pose proof (unit_some _ _ U) as (P & UE & _).
  assert (E : vscale c (vscale t (vsub pos n)) = vscale (c * t * norm (vsub pos n)) u). { rewrite UE. destruct (vsub pos n) as [[x y] z]. unfold vscale. f_equal; [f_equal|]; field; lra. }
  rewrite E, (radial_unit pos n u U), unit_zero. reflexivity.
Qed.
Theorem C81_radial_refuted : forall erfc nuclei charges tau psi velocity local_energy xs age e ds u off est alpha pair i t,
  length (velocity xs) = length xs -> (i < length xs)%nat ->
  nth i (velocity xs) vzero = vscale t (vsub (nth i xs vzero) (nth (nearest (nth i xs vzero) nuclei) nuclei vzero)) ->
  let o := step erfc nuclei charges tau psi velocity local_energy xs age e ds u off est alpha pair in
  o_position o = xs /\ o_average o = 0 /\ o_log_weight o = 0 /\ o_rate o = 0.
Proof.
  intros erfc nuclei charges tau psi velocity local_energy xs age e ds u off est alpha pair i t L I V o. unfold o, step.
  assert (A : forall xs V i, length V = length xs -> (i < length xs)%nat -> prep1 erfc nuclei charges tau (nth i xs vzero) (nth i V vzero) = None ->
    all (map (fun x => prep1 erfc nuclei charges tau (fst x) (snd x)) (combine xs V)) = None).
  { clear. induction xs as [|x xs IH]; intros [|v V] i L I H; try discriminate; [cbn in I; lia|]. cbn [combine map fst snd all]. destruct i as [|i].
    - cbn in H. rewrite H. reflexivity.
    - rewrite (IH V i); [destruct (prep1 _ _ _ _ x v); reflexivity|cbn in L; lia|cbn in I; lia|exact H]. }
  unfold from_orig. rewrite (A xs (velocity xs) i L I); [cbn; repeat split; reflexivity|]. rewrite V. apply radial_prep.
Qed.
(** In particular in the ground state exp(-|r|) of a hydrogen atom, whose velocity, the
    gradient of the logarithm, is -r/|r|: no walker ever moves. *)
Theorem C81_hydrogen_refuted : forall erfc tau x age e ds u off est alpha pair,
  let velocity := map (fun r => vscale (- / norm r) r) in
  let o := step erfc [vzero] [1] tau (fun r => exp (- norm (nth 0 r vzero))) velocity (fun _ => - (1 / 2)) [x] age e ds u off est alpha pair in
  o_position o = [x] /\ o_average o = 0.
Proof.
  intros. destruct (C81_radial_refuted erfc [vzero] [1] tau (fun r => exp (- norm (nth 0 r vzero))) velocity (fun _ => - (1 / 2)) [x] age e ds u off est alpha pair 0 (- / norm x)) as (A & B & _); [reflexivity|cbn; lia| |split; assumption].
  cbn. destruct x as [[a b] c]. unfold vscale, vsub, vzero. f_equal; [f_equal|]; ring.
Qed.
(** The gradient of -|r|, along the first axis, is what the previous theorem uses. *)
Lemma hydrogen_gradient x y z : (x, y, z) <> vzero -> is_derive (fun t => - norm (t, y, z)) x (- / norm (x, y, z) * x).
Proof.
  intros N. unfold norm, vdot. assert (P : 0 < x * x + y * y + z * z).
  { destruct (Rlt_le_dec 0 (x * x + y * y + z * z)) as [|L]; [assumption|]. exfalso. apply N. unfold vzero. assert (x = 0) by nra. assert (y = 0) by nra. assert (z = 0) by nra. congruence. }
  auto_derive; [exact P|]. pose proof (sqrt_lt_R0 _ P). field. lra.
Qed.

(** ** Every position can be proposed, and a concrete pair of proposals *)
Theorem C81_reachable : forall p tau y, 0 < tau -> over p < 1 -> exists d, 0 <= d_u d < 1 /\ diffuse p tau d = y.
Proof.
  intros p tau y T O. exists {| d_u := 0; d_normal := vscale (/ sqrt tau) (vsub y (drifted p)); d_gamma := 1; d_phi := 0; d_w := 0 |}. cbn [d_u]. split; [lra|].
  unfold diffuse, delta_R. cbn [d_u d_normal]. destruct (Rlt_dec 0 (1 - over p)) as [_|]; [|lra]. pose proof (sqrt_lt_R0 tau T).
  destruct y as [[? ?] ?], (drifted p) as [[? ?] ?]. unfold vadd, vscale, vsub. f_equal; [f_equal|]; field; lra.
Qed.
Lemma reach1 erfc nuclei charges tau x v y : 0 < tau -> (forall x, 0 < erfc x < 2) -> x <> nth (nearest x nuclei) nuclei vzero -> (forall t, v <> vscale t (vsub x (nth (nearest x nuclei) nuclei vzero))) ->
  exists ds Gf dR, length ds = 1%nat /\ from_orig erfc nuclei charges tau [x] [v] ds = Some ([y], Gf, dR).
Proof.
  intros T E X V. destruct (C81_proposal erfc nuclei charges tau x v T E X V) as (p & c & d & u & q & P & _ & _ & _ & _ & _ & _ & _ & _ & O & Q & _).
  destruct (C81_reachable p tau y T) as (dr & _ & DR); [lra|]. exists [dr]. unfold from_orig. cbn [combine map fst snd all]. rewrite P. cbn [obind map combine fst snd]. do 2 eexists. split; [reflexivity|]. rewrite DR. reflexivity.
Qed.
Example C81_example : forall erfc, (forall x, 0 < erfc x < 2) ->
  let velocity := map (fun r : vec => let '(x, y, z) := r in (- y, x, 0)) in
  let a := (1, 0, 0) in let b := (2, 0, 0) in
  exists ds Gf dR ds' Gf' dR', length ds = 1%nat /\ length ds' = 1%nat /\
    from_orig erfc [vzero] [1] (1 / 100) [a] (velocity [a]) ds = Some ([b], Gf, dR) /\ from_orig erfc [vzero] [1] (1 / 100) [b] (velocity [b]) ds' = Some ([a], Gf', dR').
Proof.
  intros erfc E velocity a b.
  destruct (reach1 erfc [vzero] [1] (1 / 100) a (- 0, 1, 0) b ltac:(lra) E) as (ds & Gf & dR & L & H).
  { cbn. intros Q. unfold a, vzero in Q. injection Q. lra. } { intros t Q. cbn in Q. unfold vscale, vsub, vzero, a in Q. injection Q. intros. lra. }
  destruct (reach1 erfc [vzero] [1] (1 / 100) b (- 0, 2, 0) a ltac:(lra) E) as (ds' & Gf' & dR' & L' & H').
  { cbn. intros Q. unfold b, vzero in Q. injection Q. lra. } { intros t Q. cbn in Q. unfold vscale, vsub, vzero, b in Q. injection Q. intros. lra. }
  exists ds, Gf, dR, ds', Gf', dR'. repeat split; assumption.
Qed.
