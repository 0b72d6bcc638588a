(** C73: moves and the Coulomb energy on the sphere. *)
From Coq Require Import Reals List Arith Lra Lia.
From Coquelicot Require Import Coquelicot.
From Verif Require Import Det Hall_Spec Sph_Spec Sph_Model Sphere_Spec Sphere_Model.
Import ListNotations.
Open Scope R_scope.

Lemma sq1 t : sin t * sin t + cos t * cos t = 1.
Proof. pose proof (sin2_cos2 t) as H. unfold Rsqr in H. exact H. Qed.
Lemma clip_id x : -1 <= x <= 1 -> clip (-1) 1 x = x.
Proof. intros H. unfold clip. rewrite Rmax_left, Rmin_left by lra. reflexivity. Qed.
Lemma sq_sum x y r : x * x + y * y = r * r -> 0 < r -> -1 <= x / r <= 1.
Proof.
  intros H R0. assert (D : x / r * (x / r) <= 1). { apply (Rmult_le_reg_r (r * r)); [nra|]. replace (x / r * (x / r) * (r * r)) with (x * x) by (field; lra). nra. } nra.
Qed.
Lemma polar dx dy dz : dx * dx + dy * dy + dz * dz = 1 -> let t := acos (clip (-1) 1 dz) in let p := sign dy * acos (clip (-1) 1 (dx / sin t)) in
  0 <= t <= PI /\ - PI <= p <= PI /\ cos t = dz /\ (dy <> 0 -> sin t * cos p = dx /\ sin t * sin p = dy) /\ (dy = 0 -> sin t * cos p = Rabs dx /\ sin t * sin p = 0).
Proof.
  intros U t p. assert (Z : -1 <= dz <= 1) by nra. assert (CT : cos t = dz) by (unfold t; rewrite clip_id by exact Z; apply cos_acos; exact Z).
  assert (PI0 := PI_RGT_0). assert (TB : 0 <= t <= PI) by apply acos_bound.
  assert (PB : - PI <= p <= PI).
  { unfold p, sign. pose proof (acos_bound (clip (-1) 1 (dx / sin t))) as B. destruct (Rlt_dec 0 dy); [|destruct (Rlt_dec dy 0)]; lra. }
  assert (S2 : sin t * sin t = dx * dx + dy * dy) by (pose proof (sq1 t) as S; rewrite CT in S; lra). assert (SP : 0 <= sin t) by (apply sin_ge_0; lra).
  split; [exact TB|split; [exact PB|split; [exact CT|]]]. split.
  - intros Y. assert (SP' : 0 < sin t) by nra. assert (XB : -1 <= dx / sin t <= 1) by (apply (sq_sum dx dy); [lra|exact SP']).
    assert (CA : cos (acos (clip (-1) 1 (dx / sin t))) = dx / sin t) by (rewrite clip_id by exact XB; apply cos_acos; exact XB).
    assert (SA : sin (acos (clip (-1) 1 (dx / sin t))) = Rabs dy / sin t).
    { rewrite clip_id by exact XB. rewrite sin_acos by exact XB. replace (1 - (dx / sin t)²) with (Rsqr (dy / sin t)).
      - rewrite sqrt_Rsqr_abs. unfold Rdiv. rewrite Rabs_mult, (Rabs_pos_eq (/ sin t)); [reflexivity|left; apply Rinv_0_lt_compat; exact SP'].
      - unfold Rsqr. field_simplify_eq; [|lra]. nra. }
    unfold p, sign. destruct (Rlt_dec 0 dy) as [P|P]; [|destruct (Rlt_dec dy 0) as [Q|Q]; [|lra]].
    + rewrite Rmult_1_l, CA, SA, Rabs_pos_eq by lra. split; field; lra.
    + replace (-1 * acos (clip (-1) 1 (dx / sin t))) with (- acos (clip (-1) 1 (dx / sin t))) by ring. rewrite cos_neg, sin_neg, CA, SA, Rabs_left by lra. split; field; lra.
  - intros ->. unfold p, sign. destruct (Rlt_dec 0 0); [lra|]. rewrite Rmult_0_l, cos_0, sin_0. split; [|ring]. rewrite Rmult_1_r. apply Rsqr_inj; [exact SP|apply Rabs_pos|]. rewrite <- Rsqr_abs. unfold Rsqr. lra.
Qed.
Lemma dest_unit x t p : destination x t p 0 * destination x t p 0 + destination x t p 1 * destination x t p 1 + destination x t p 2 * destination x t p 2 = 1.
Proof.
  unfold destination, rvec, thvec, phvec. cbn [nth]. pose proof (sq1 (fst x)) as A. pose proof (sq1 (snd x)) as B. pose proof (sq1 t) as D. pose proof (sq1 p) as E. revert A B D E.
  generalize (sin (fst x)) (cos (fst x)) (sin (snd x)) (cos (snd x)) (sin t) (cos t) (sin p) (cos p). intros s c sp cp st ct su cu A B D E.
  assert (A' : s * s = 1 - c * c) by lra. assert (B' : sp * sp = 1 - cp * cp) by lra. assert (D' : st * st = 1 - ct * ct) by lra. assert (E' : su * su = 1 - cu * cu) by lra. ring [A' B' D' E'].
Qed.
Lemma dest_dot x t p : destination x t p 0 * x_of x + destination x t p 1 * y_of x + destination x t p 2 * z_of x = cos t.
Proof.
  unfold destination, rvec, thvec, phvec, x_of, y_of, z_of. cbn [nth]. pose proof (sq1 (fst x)) as A. pose proof (sq1 (snd x)) as B. revert A B.
  generalize (sin (fst x)) (cos (fst x)) (sin (snd x)) (cos (snd x)) (sin t) (cos t) (sin p) (cos p). intros s c sp cp st ct su cu A B.
  assert (A' : s * s = 1 - c * c) by lra. assert (B' : sp * sp = 1 - cp * cp) by lra. ring [A' B'].
Qed.
Lemma move_eq x sd g u : sphere_move x sd g u =
  let d := destination x (atan (g * sd)) (u * 2 * PI) in
  let t := acos (clip (-1) 1 (d 2%nat)) in (t, sign (d 1%nat) * acos (clip (-1) 1 (d 0%nat / sin t))).
Proof.
  unfold sphere_move, destination, rvec, thvec, phvec. cbn [nth]. cbv zeta.
  replace (- sin (fst x) * (sin (atan (g * sd)) * cos (u * 2 * PI)) + cos (fst x) * cos (atan (g * sd)))
    with (cos (atan (g * sd)) * cos (fst x) + sin (atan (g * sd)) * (cos (u * 2 * PI) * - sin (fst x) + sin (u * 2 * PI) * 0)) by ring.
  apply f_equal. f_equal; [apply f_equal; ring|]. apply f_equal, f_equal. unfold Rdiv. f_equal. ring.
Qed.

(** A move turns the electron through the drawn angle in the drawn direction; the result is a valid pair of angles.  Exactly
    on the plane y = 0 the longitude is always 0, which is right only on the half x >= 0. *)
Theorem C73_move : forall x sd g u, let y := sphere_move x sd g u in let d := destination x (atan (g * sd)) (u * 2 * PI) in
  0 <= fst y <= PI /\ - PI <= snd y <= PI /\ (d 1%nat <> 0 -> same_point y d) /\
  (d 1%nat = 0 -> z_of y = d 2%nat /\ y_of y = 0 /\ x_of y = Rabs (d 0%nat)).
Proof.
  intros x sd g u y d. unfold y. rewrite move_eq. fold d. cbv zeta.
  destruct (polar (d 0%nat) (d 1%nat) (d 2%nat) (dest_unit x _ _)) as (T & P & Z & N & M). cbv zeta in T, P, Z, N, M. cbn [fst snd].
  split; [exact T|split; [exact P|split]]; intros Y; unfold same_point, x_of, y_of, z_of; cbn [fst snd].
  - destruct (N Y) as [A B]. auto.
  - destruct (M Y) as [A B]. auto.
Qed.
(** The angle between the old and the new position is the drawn one, at most a right angle. *)
Theorem C73_move_angle : forall x sd g u, let y := sphere_move x sd g u in destination x (atan (g * sd)) (u * 2 * PI) 1 <> 0 ->
  dot y x = cos (atan (g * sd)) /\ 0 < dot y x.
Proof.
  intros x sd g u y Y. destruct (C73_move x sd g u) as (_ & _ & M & _). destruct (M Y) as (A & B & D). fold y in A, B, D.
  assert (E : dot y x = cos (atan (g * sd))) by (unfold dot; rewrite A, B, D; apply dest_dot). split; [exact E|]. rewrite E. pose proof (atan_bound (g * sd)). apply cos_gt_0; lra.
Qed.
Lemma angle_of c s : s * s + c * c = 1 -> exists p, 0 <= p < 2 * PI /\ cos p = c /\ sin p = s.
Proof.
  intros H. assert (PI0 := PI_RGT_0). assert (CB : -1 <= c <= 1) by nra. pose proof (acos_bound c) as B. pose proof (cos_acos c CB) as CC.
  assert (SS : sin (acos c) = Rabs s). { rewrite sin_acos by exact CB. rewrite <- sqrt_Rsqr_abs. f_equal. unfold Rsqr. lra. }
  destruct (Rle_dec 0 s) as [P|P].
  - exists (acos c). rewrite Rabs_pos_eq in SS by exact P. split; [lra|auto].
  - exists (2 * PI - acos c). rewrite Rabs_left in SS by lra.
    assert (A0 : acos c <> 0) by (intros Z; rewrite Z, sin_0 in SS; lra). split; [lra|]. split.
    + rewrite cos_minus, cos_2PI, sin_2PI. lra.
    + rewrite sin_minus, cos_2PI, sin_2PI. lra.
Qed.
(** Symmetry of the proposal: the way back is a turn through the same angle in a suitable direction. *)
Theorem C73_move_back : forall x sd g u, let y := sphere_move x sd g u in destination x (atan (g * sd)) (u * 2 * PI) 1 <> 0 ->
  exists u', 0 <= u' < 1 /\ same_point x (destination y (atan (g * sd)) (u' * 2 * PI)).
Proof.
  intros x sd g u y Y. assert (PI0 := PI_RGT_0). destruct (C73_move_angle x sd g u Y) as [D _]. fold y in D. set (t := atan (g * sd)) in *.
  assert (TB : - PI / 2 < t < PI / 2) by apply atan_bound. assert (CP : 0 < cos t) by (apply cos_gt_0; lra).
  (* components of x along the frame at y *)
  set (a := thvec y 0 * x_of x + thvec y 1 * y_of x + thvec y 2 * z_of x). set (b := phvec y 0 * x_of x + phvec y 1 * y_of x + phvec y 2 * z_of x).
  assert (F : forall v0 v1 v2, let r := rvec y 0 * v0 + rvec y 1 * v1 + rvec y 2 * v2 in let th := thvec y 0 * v0 + thvec y 1 * v1 + thvec y 2 * v2 in let ph := phvec y 0 * v0 + phvec y 1 * v1 + phvec y 2 * v2 in
    v0 = r * rvec y 0 + th * thvec y 0 + ph * phvec y 0 /\ v1 = r * rvec y 1 + th * thvec y 1 + ph * phvec y 1 /\ v2 = r * rvec y 2 + th * thvec y 2 + ph * phvec y 2 /\
    v0 * v0 + v1 * v1 + v2 * v2 = r * r + th * th + ph * ph).
  { intros v0 v1 v2. cbv zeta. unfold rvec, thvec, phvec. cbn [nth]. pose proof (sq1 (fst y)) as A. pose proof (sq1 (snd y)) as B. revert A B. generalize (sin (fst y)) (cos (fst y)) (sin (snd y)) (cos (snd y)).
    intros s c sp cp A B. assert (A' : s * s = 1 - c * c) by lra. assert (B' : sp * sp = 1 - cp * cp) by lra. repeat split; ring [A' B']. }
  destruct (F (x_of x) (y_of x) (z_of x)) as (F0 & F1 & F2 & FN). fold a b in F0, F1, F2, FN.
  assert (R0 : rvec y 0 * x_of x + rvec y 1 * y_of x + rvec y 2 * z_of x = cos t) by (rewrite <- D; reflexivity). rewrite R0 in *.
  assert (XU : x_of x * x_of x + y_of x * y_of x + z_of x * z_of x = 1).
  { unfold x_of, y_of, z_of. pose proof (sq1 (fst x)) as A. pose proof (sq1 (snd x)) as B. revert A B. generalize (sin (fst x)) (cos (fst x)) (sin (snd x)) (cos (snd x)). intros s c sp cp A B.
    assert (A' : s * s = 1 - c * c) by lra. assert (B' : sp * sp = 1 - cp * cp) by lra. ring [A' B']. }
  assert (AB : a * a + b * b = sin t * sin t) by (pose proof (sq1 t); lra).
  assert (K : exists p, 0 <= p < 2 * PI /\ a = sin t * cos p /\ b = sin t * sin p).
  { destruct (Req_dec (sin t) 0) as [Z|NZ].
    - exists 0. rewrite Z in *. assert (a = 0) by nra. assert (b = 0) by nra. split; [lra|]. rewrite H, H0. split; ring.
    - destruct (angle_of (a / sin t) (b / sin t)) as (p & P & CPp & SPp); [field_simplify_eq; [|exact NZ]; lra|]. exists p. split; [exact P|]. rewrite CPp, SPp. split; field; exact NZ. }
  destruct K as (p & P & KA & KB). exists (p / (2 * PI)). split.
  - split; [apply Rmult_le_pos; [lra|left; apply Rinv_0_lt_compat; lra]|]. apply (Rmult_lt_reg_r (2 * PI)); [lra|]. unfold Rdiv. rewrite Rmult_assoc, Rinv_l by lra. lra.
  - replace (p / (2 * PI) * 2 * PI) with p by (field; lra). unfold same_point, destination. rewrite KA, KB in F0, F1, F2. split; [rewrite F0 at 1; ring|split; [rewrite F1 at 1; ring|rewrite F2 at 1; ring]].
Qed.

(** ** Coulomb energy *)
Lemma rtotal_S n f : rtotal (S n) f = rtotal n f + f n.
Proof. reflexivity. Qed.
Lemma rtotal_ext n f g : (forall i, (i < n)%nat -> f i = g i) -> rtotal n f = rtotal n g.
Proof. induction n as [|n IH]; intros H; [reflexivity|]. rewrite !rtotal_S, IH, H by (intros; auto). reflexivity. Qed.
Lemma rtotal_0 n : rtotal n (fun _ => 0) = 0.
Proof. induction n as [|n IH]; [reflexivity|]. rewrite rtotal_S, IH. ring. Qed.
Lemma rtotal_plus n f g : rtotal n (fun i => f i + g i) = rtotal n f + rtotal n g.
Proof. induction n as [|n IH]; [cbn; ring|]. rewrite !rtotal_S, IH. ring. Qed.
Lemma rtotal_scale n f c : rtotal n f * c = rtotal n (fun i => f i * c).
Proof. induction n as [|n IH]; [cbn; ring|]. rewrite !rtotal_S, <- IH. ring. Qed.
Lemma upper_sum n (f : nat -> nat -> R) :
  rtotal n (fun i => rtotal n (fun j => if Nat.ltb i j then f i j else 0)) = rtotal n (fun j => rtotal j (fun i => f i j)).
Proof.
  induction n as [|n IH]; [reflexivity|]. rewrite rtotal_S, (rtotal_S n (fun j => rtotal j (fun i => f i j))).
  rewrite (rtotal_ext n _ (fun i => rtotal n (fun j => if Nat.ltb i j then f i j else 0) + f i n)).
  - rewrite rtotal_plus, IH. rewrite (rtotal_ext (S n) _ (fun _ => 0)); [rewrite rtotal_0; ring|].
    intros j J. destruct (Nat.ltb_spec n j); [lia|reflexivity].
  - intros i I. rewrite rtotal_S. destruct (Nat.ltb_spec i n); [reflexivity|lia].
Qed.
Lemma chord_cos p q : 2 - 2 * (r_hat p 0 * r_hat q 0 + r_hat p 1 * r_hat q 1 + r_hat p 2 * r_hat q 2) =
  (x_of p - x_of q) ^ 2 + (y_of p - y_of q) ^ 2 + (z_of p - z_of q) ^ 2.
Proof.
  unfold r_hat, x_of, y_of, z_of. cbn [nth]. pose proof (sq1 (fst p)) as A. pose proof (sq1 (snd p)) as B. pose proof (sq1 (fst q)) as D. pose proof (sq1 (snd q)) as E. revert A B D E.
  generalize (sin (fst p)) (cos (fst p)) (sin (snd p)) (cos (snd p)) (sin (fst q)) (cos (fst q)) (sin (snd q)) (cos (snd q)). intros s c sp cp s' c' sp' cp' A B D E.
  assert (A' : s * s = 1 - c * c) by lra. assert (B' : sp * sp = 1 - cp * cp) by lra. assert (D' : s' * s' = 1 - c' * c') by lra. assert (E' : sp' * sp' = 1 - cp' * cp') by lra. ring [A' B' D' E'].
Qed.
Theorem C73_potential : forall n strength radius e, 0 < radius -> distinct n e ->
  sphere_potential n strength radius e = coulomb n strength radius e.
Proof.
  intros n g r e R D. unfold sphere_potential, coulomb. rewrite upper_sum. change (rsigma n) with (rtotal n).
  unfold Rdiv at 1. rewrite rtotal_scale, Rmult_comm. f_equal. apply rtotal_ext. intros j J. rewrite rtotal_scale. change (rsigma j) with (rtotal j). apply rtotal_ext. intros i I.
  unfold cos12, distance. rewrite <- chord_cos. 
  assert (NZ : distance (e i) (e j) <> 0) by (apply D; lia). unfold distance in NZ. rewrite <- chord_cos in NZ.
  replace (rtotal 3 (fun a => r_hat (e i) a * r_hat (e j) a)) with (r_hat (e i) 0 * r_hat (e j) 0 + r_hat (e i) 1 * r_hat (e j) 1 + r_hat (e i) 2 * r_hat (e j) 2) by (unfold rtotal; cbn; ring).
  field. split; [exact NZ|lra].
Qed.
(** A quarter turn along the equator from the point x: it arrives at an angle of 45 degrees, off the plane y = 0; and two
    electrons at opposite poles of a sphere of radius 2 repel with strength/4. *)
Theorem C73_example : destination (PI / 2, 0) (atan (1 * 1)) (/ 4 * 2 * PI) 1 <> 0 /\ sphere_move (PI / 2, 0) 1 1 (/ 4) = (PI / 2, PI / 4) /\
  sphere_potential 2 1 2 (fun i => if Nat.eqb i 0 then (0, 0) else (PI, 0)) = / 4.
Proof.
  assert (PI0 := PI_RGT_0). assert (A1 : atan (1 * 1) = PI / 4) by (rewrite Rmult_1_l; apply atan_1). assert (P : / 4 * 2 * PI = PI / 2) by field.
  assert (S2 : 0 < sqrt 2) by (apply sqrt_lt_R0; lra).
  assert (D0 : destination (PI / 2, 0) (PI / 4) (PI / 2) 0 = cos (PI / 4)) by (unfold destination, rvec, thvec, phvec; cbn [nth fst snd]; rewrite sin_PI2, cos_PI2, sin_0, cos_0; ring).
  assert (D1 : destination (PI / 2, 0) (PI / 4) (PI / 2) 1 = sin (PI / 4)) by (unfold destination, rvec, thvec, phvec; cbn [nth fst snd]; rewrite sin_PI2, cos_PI2, sin_0, cos_0; ring).
  assert (D2 : destination (PI / 2, 0) (PI / 4) (PI / 2) 2 = 0) by (unfold destination, rvec, thvec, phvec; cbn [nth fst snd]; rewrite sin_PI2, cos_PI2; ring).
  assert (SN : 0 < sin (PI / 4)) by (apply sin_gt_0; lra).
  split; [rewrite A1, P, D1; lra|split].
  - rewrite move_eq, A1, P. cbv zeta. rewrite D0, D1, D2. rewrite (clip_id 0) by lra. rewrite acos_0, sin_PI2. f_equal. unfold sign. destruct (Rlt_dec 0 (sin (PI / 4))); [|lra].
    rewrite Rdiv_1, Rmult_1_l. rewrite clip_id by apply COS_bound. apply acos_cos. lra.
  - rewrite C73_potential; [|lra|].
    + unfold coulomb. cbn [rsigma Nat.eqb]. unfold distance, x_of, y_of, z_of. cbn [fst snd]. rewrite sin_0, sin_PI, cos_0, cos_PI.
      replace ((0 * 1 - 0 * 1) ^ 2 + (0 * 0 - 0 * 0) ^ 2 + (1 - -1) ^ 2) with (2 * 2) by ring. rewrite sqrt_square by lra. field.
    + intros i j I J N. unfold distance, x_of, y_of, z_of. assert (H : (i = 0 /\ j = 1 \/ i = 1 /\ j = 0)%nat) by lia.
      destruct H as [[-> ->]|[-> ->]]; cbn [Nat.eqb fst snd]; rewrite sin_0, sin_PI, cos_0, cos_PI; apply Rgt_not_eq, sqrt_lt_R0; lra.
Qed.
