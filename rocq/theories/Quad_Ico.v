(** C53: the icosahedral rules are exact on polynomials. *)
From Coq Require Import Reals List Arith Lia Lra QArith Qreals.
From Coquelicot Require Import Coquelicot.
From Verif Require Import Quad_Spec Quad_Sphere Quad_Rot Quad_Model Quad_Oct.
Import ListNotations.
Open Scope R_scope.

(** ** The field Q(sqrt 5) *)
Definition q5 := (Q * Q)%type.
Definition ev (x : q5) : R := Q2R (fst x) + Q2R (snd x) * sqrt 5.
Definition qadd (x y : q5) : q5 := (Qred (fst x + fst y), Qred (snd x + snd y))%Q.
Definition qmul (x y : q5) : q5 := (Qred (fst x * fst y + 5 * (snd x * snd y)), Qred (fst x * snd y + snd x * fst y))%Q.
Fixpoint qpow (x : q5) (n : nat) : q5 := match n with O => (1, 0)%Q | Datatypes.S m => qmul x (qpow x m) end.
Definition inj (q : Q) : q5 := (q, 0)%Q.
Lemma Q2R_red q : Q2R (Qred q) = Q2R q. Proof. apply Qeq_eqR. apply Qred_correct. Qed.
Lemma five : sqrt 5 * sqrt 5 = 5. Proof. apply sqrt_sqrt. lra. Qed.
Lemma Q2R_5 : Q2R 5 = 5. Proof. unfold Q2R. cbn. lra. Qed.
Lemma ev_add x y : ev (qadd x y) = ev x + ev y. Proof. unfold ev, qadd. cbn [fst snd]. rewrite !Q2R_red, !Q2R_plus. ring. Qed.
Lemma ev_mul x y : ev (qmul x y) = ev x * ev y.
Proof.
  unfold ev, qmul. cbn [fst snd]. rewrite !Q2R_red, !Q2R_plus, !Q2R_mult, Q2R_5. transitivity (Q2R (fst x) * Q2R (fst y) + (sqrt 5 * sqrt 5) * (Q2R (snd x) * Q2R (snd y)) + (Q2R (fst x) * Q2R (snd y) + Q2R (snd x) * Q2R (fst y)) * sqrt 5); [rewrite five; ring|ring].
Qed.
Lemma ev_1 : ev (1, 0)%Q = 1. Proof. unfold ev. cbn [fst snd]. rewrite RMicromega.Q2R_0, RMicromega.Q2R_1. ring. Qed.
Lemma ev_pow x n : ev (qpow x n) = ev x ^ n.
Proof. induction n as [|n IH]; cbn [qpow pow]; [apply ev_1|rewrite ev_mul, IH; reflexivity]. Qed.
Lemma ev_inj q : ev (inj q) = Q2R q. Proof. unfold ev, inj. cbn [fst snd]. rewrite RMicromega.Q2R_0. ring. Qed.
(** ** The regular pentagon *)
Lemma fifth : 0 < PI / 5 < PI / 2. Proof. pose proof PI_RGT_0. lra. Qed.
Definition c1 := cos (2 * PI / 5). Definition s1 := sin (2 * PI / 5). Definition c2 := cos (4 * PI / 5). Definition s2 := sin (4 * PI / 5).
Lemma c1_pos : 0 < c1. Proof. apply cos_gt_0; pose proof PI_RGT_0; lra. Qed.
Lemma c2_double : c2 = 2 * c1 * c1 - 1. Proof. unfold c2, c1. replace (4 * PI / 5) with (2 * (2 * PI / 5)) by field. rewrite cos_2a_cos. ring. Qed.
Lemma c2_quad : 4 * c1 * c1 + 2 * c1 - 1 = 0.
Proof.
  (* cos(3x) = cos(2x) for x = 2 pi / 5 *)
  assert (E : cos (3 * (2 * PI / 5)) = cos (2 * (2 * PI / 5))) by (replace (3 * (2 * PI / 5)) with (- (2 * (2 * PI / 5)) + 2 * PI) by field; rewrite cos_plus, cos_2PI, sin_2PI, cos_neg; ring).
  replace (3 * (2 * PI / 5)) with (2 * (2 * PI / 5) + 2 * PI / 5) in E by field. rewrite cos_plus, cos_2a_cos, sin_2a in E. fold c1 in E. fold s1 in E. pose proof (sin2_cos2 (2 * PI / 5)) as SC. unfold Rsqr in SC. fold c1 in SC. fold s1 in SC.
  replace (2 * s1 * c1 * s1) with (2 * c1 * (s1 * s1)) in E by ring. replace (s1 * s1) with (1 - c1 * c1) in E by lra. pose proof c1_pos as P.
  assert (N : c1 <> 1). { intros H. assert (s1 = 0) by (apply Rsqr_0_uniq; unfold Rsqr; rewrite H in SC; lra). pose proof (sin_gt_0 (2 * PI / 5)) as G. fold s1 in G. pose proof PI_RGT_0. specialize (G ltac:(lra) ltac:(lra)). lra. }
  assert (F : (c1 - 1) * (4 * c1 * c1 + 2 * c1 - 1) = 0) by (ring_simplify; ring_simplify in E; lra).
  destruct (Rmult_integral _ _ F) as [H|H]; [exfalso; lra|exact H].
Qed.
Lemma c1_val : c1 = (sqrt 5 - 1) / 4.
Proof.
  pose proof c2_quad as Q. pose proof c1_pos as P. pose proof five as V. pose proof (sqrt_lt_R0 5 ltac:(lra)) as W.
  assert (F : (4 * c1 + 1 - sqrt 5) * (4 * c1 + 1 + sqrt 5) = 0) by nra. destruct (Rmult_integral _ _ F) as [H|H]; lra.
Qed.
Lemma c2_val : c2 = (- sqrt 5 - 1) / 4. Proof. rewrite c2_double, c1_val. pose proof five. nra. Qed.
Lemma s1_sq : s1 ^ 2 = 1 - c1 ^ 2. Proof. pose proof (sin2_cos2 (2 * PI / 5)) as H. unfold Rsqr in H. unfold s1, c1. cbn. lra. Qed.
Lemma s2_sq : s2 ^ 2 = 1 - c2 ^ 2. Proof. pose proof (sin2_cos2 (4 * PI / 5)) as H. unfold Rsqr in H. unfold s2, c2. cbn. lra. Qed.
Lemma even_az_values : map (fun k => (cos (even_az k), sin (even_az k))) (seq 0 5) = [(1, 0); (c1, s1); (c2, s2); (c2, - s2); (c1, - s1)].
Proof.
  unfold even_az, c1, s1, c2, s2. cbn [seq map INR]. 
  replace (2 * 0 * PI / 5) with 0 by field. replace (2 * 1 * PI / 5) with (2 * PI / 5) by field. replace (2 * (1 + 1) * PI / 5) with (4 * PI / 5) by field.
  replace (2 * (1 + 1 + 1) * PI / 5) with (- (4 * PI / 5) + 2 * PI) by field. replace (2 * (1 + 1 + 1 + 1) * PI / 5) with (- (2 * PI / 5) + 2 * PI) by field.
  rewrite !cos_plus, !sin_plus, cos_2PI, sin_2PI, !cos_neg, !sin_neg, cos_0, sin_0. repeat (f_equal; try ring).
Qed.
Lemma odd_az_values : map (fun k => (cos (odd_az k), sin (odd_az k))) (seq 0 5) = [(- c2, s2); (- c1, s1); (-1, 0); (- c1, - s1); (- c2, - s2)].
Proof.
  unfold odd_az, c1, s1, c2, s2. cbn [seq map INR]. 
  replace ((2 * 0 + 1) * PI / 5) with (- (4 * PI / 5) + PI) by field. replace ((2 * 1 + 1) * PI / 5) with (- (2 * PI / 5) + PI) by field. replace ((2 * (1 + 1) + 1) * PI / 5) with PI by field.
  replace ((2 * (1 + 1 + 1) + 1) * PI / 5) with (2 * PI / 5 + PI) by field. replace ((2 * (1 + 1 + 1 + 1) + 1) * PI / 5) with (4 * PI / 5 + PI) by field.
  rewrite !cos_plus, !sin_plus, cos_PI, sin_PI, !cos_neg, !sin_neg. repeat (f_equal; try ring).
Qed.
(** azimuthal sums *)
Definition F0 (a b : nat) : R := 0 ^ b + (1 + (-1) ^ b) * (c1 ^ a * s1 ^ b + c2 ^ a * s2 ^ b).
Lemma neg_pow x n : (- x) ^ n = (-1) ^ n * x ^ n. Proof. replace (- x) with (-1 * x) by ring. apply Rpow_mult_distr. Qed.
Lemma ring_total th az a b c : total (map cartesian (ring th az)) (mono a b c) = sin th ^ (a + b) * cos th ^ c * fold_right Rplus 0 (map (fun k => cos (az k) ^ a * sin (az k) ^ b) (seq 0 5)).
Proof.
  unfold total, ring. rewrite !map_map. induction (seq 0 5) as [|k l IH]; cbn [map fold_right]; [ring|]. rewrite IH. unfold at_pt, mono, cartesian. cbn [fst snd]. rewrite !Rpow_mult_distr, pow_add. ring.
Qed.
Lemma even_total a b : fold_right Rplus 0 (map (fun k => cos (even_az k) ^ a * sin (even_az k) ^ b) (seq 0 5)) = F0 a b.
Proof.
  transitivity (fold_right Rplus 0 (map (fun p => fst p ^ a * snd p ^ b) (map (fun k => (cos (even_az k), sin (even_az k))) (seq 0 5)))); [rewrite map_map; reflexivity|].
  rewrite even_az_values. cbn [map fold_right fst snd]. rewrite pow1, !(neg_pow s1), !(neg_pow s2). unfold F0. ring.
Qed.
Lemma odd_total a b : fold_right Rplus 0 (map (fun k => cos (odd_az k) ^ a * sin (odd_az k) ^ b) (seq 0 5)) = (-1) ^ a * F0 a b.
Proof.
  transitivity (fold_right Rplus 0 (map (fun p => fst p ^ a * snd p ^ b) (map (fun k => (cos (odd_az k), sin (odd_az k))) (seq 0 5)))); [rewrite map_map; reflexivity|].
  rewrite odd_az_values. cbn [map fold_right fst snd]. rewrite !(neg_pow s1), !(neg_pow s2), !(neg_pow c1), !(neg_pow c2). unfold F0. ring.
Qed.
(** ** The two shells of points *)
Definition shell12 := map cartesian ([(0, 0); (PI, 0)] ++ ring (atan 2) even_az ++ ring (PI - atan 2) odd_az).
Definition shell20 := map cartesian (ring theta1 odd_az ++ ring theta2 odd_az ++ ring (PI - theta1) even_az ++ ring (PI - theta2) even_az).
Lemma minus1_sq n : (-1) ^ n * (-1) ^ n = 1. Proof. rewrite <- Rpow_mult_distr. replace (-1 * -1) with 1 by ring. apply pow1. Qed.
Lemma sin_sub th : sin (PI - th) = sin th. Proof. apply sin_PI_x. Qed.
Lemma cos_sub th : cos (PI - th) = - cos th. Proof. unfold Rminus. rewrite cos_plus, cos_neg, sin_neg, cos_PI, sin_PI. ring. Qed.
Lemma shell12_total a b c : total shell12 (mono a b c) = (1 + (-1) ^ c) * (0 ^ a * 0 ^ b) + (1 + (-1) ^ a * (-1) ^ c) * (sin (atan 2) ^ (a + b) * cos (atan 2) ^ c * F0 a b).
Proof.
  unfold shell12. rewrite !map_app, !total_app, !ring_total, even_total, odd_total, sin_sub, cos_sub, neg_pow.
  unfold total at 1. cbn [map fold_right]. unfold at_pt, mono, cartesian. cbn [fst snd]. rewrite cos_0, sin_0, cos_PI, sin_PI, !Rmult_0_l, pow1. ring.
Qed.
Lemma shell20_total a b c : total shell20 (mono a b c) = (-1) ^ a * (1 + (-1) ^ a * (-1) ^ c) * F0 a b * (sin theta1 ^ (a + b) * cos theta1 ^ c + sin theta2 ^ (a + b) * cos theta2 ^ c).
Proof.
  unfold shell20. rewrite !map_app, !total_app, !ring_total, !even_total, !odd_total, !sin_sub, !cos_sub, !neg_pow. pose proof (minus1_sq a) as M.
  generalize dependent ((-1) ^ a). intros e M. set (X := sin theta1 ^ (a + b) * cos theta1 ^ c). set (Y := sin theta2 ^ (a + b) * cos theta2 ^ c). transitivity ((e + e * e * (-1) ^ c) * F0 a b * (X + Y)); [rewrite M; unfold X, Y; ring|ring].
Qed.
Lemma ico_angle : sin (atan 2) = 2 / sqrt 5 /\ cos (atan 2) = 1 / sqrt 5.
Proof.
  assert (E : sqrt (1 + 2²) = sqrt 5) by (f_equal; unfold Rsqr; ring). rewrite sin_atan, cos_atan, E. auto.
Qed.
Lemma down_sq : ico_down * ico_down = 15 + 6 * sqrt 5. Proof. apply sqrt_sqrt. pose proof (sqrt_lt_R0 5 ltac:(lra)). lra. Qed.
Lemma down_pos : 0 < ico_down. Proof. apply sqrt_lt_R0. pose proof (sqrt_lt_R0 5 ltac:(lra)). lra. Qed.
Lemma acos_frac p q : 0 < q -> 0 < p -> p * p + q * q = ico_down * ico_down -> cos (acos (q / ico_down)) = q / ico_down /\ sin (acos (q / ico_down)) = p / ico_down.
Proof.
  intros Q P E. pose proof down_pos as D. assert (B : -1 <= q / ico_down <= 1).
  { split; [apply Rle_trans with 0; [lra|apply Rlt_le, Rdiv_lt_0_compat; assumption]|]. apply Rle_div_l; [exact D|]. rewrite Rmult_1_l. nra. }
  split; [apply cos_acos; exact B|]. rewrite sin_acos by exact B. apply sqrt_lem_1.
  - unfold Rsqr. assert (q / ico_down * (q / ico_down) <= 1 * 1) by (apply Rmult_le_compat; try lra; apply Rlt_le, Rdiv_lt_0_compat; assumption). lra.
  - apply Rlt_le, Rdiv_lt_0_compat; assumption.
  - unfold Rsqr. replace (p / ico_down * (p / ico_down)) with ((p * p) / (ico_down * ico_down)) by (field; lra). replace (p * p) with (ico_down * ico_down - q * q) by lra. field. lra.
Qed.
Lemma theta1_values : cos theta1 = (2 + sqrt 5) / ico_down /\ sin theta1 = (1 + sqrt 5) / ico_down.
Proof. pose proof (sqrt_lt_R0 5 ltac:(lra)) as W. apply acos_frac; try lra. rewrite down_sq. pose proof five. nra. Qed.
Lemma theta2_values : cos theta2 = 1 / ico_down /\ sin theta2 = (3 + sqrt 5) / ico_down.
Proof. pose proof (sqrt_lt_R0 5 ltac:(lra)) as W. apply acos_frac; try lra. rewrite down_sq. pose proof five. nra. Qed.
(** ** The moments, in Q(sqrt 5) *)
Definition qc1 : q5 := (-1 # 4, 1 # 4)%Q. Definition qc2 : q5 := (-1 # 4, -1 # 4)%Q.
Definition qdinv : q5 := (1 # 3, -2 # 15)%Q.
Definition qsub1 (x : q5) : q5 := qadd (inj 1) (qmul (inj (-1)) (qmul x x)).
Definition q0 (n : nat) : q5 := inj (match n with O => 1 | _ => 0 end)%Q.
Definition qF0 (a j : nat) : q5 := qadd (q0 j) (qmul (inj 2) (qadd (qmul (qpow qc1 a) (qpow (qsub1 qc1) j)) (qmul (qpow qc2 a) (qpow (qsub1 qc2) j)))).
Definition q12 (a j c m : nat) : q5 :=
  qadd (qmul (qadd (inj 1) (qpow (inj (-1)) c)) (qmul (q0 a) (q0 j))) (qmul (inj 2) (qmul (qmul (qpow (inj 2) (a + 2 * j)) (qpow (inj (1 # 5)) m)) (qF0 a j))).
Definition q20 (a j c m : nat) : q5 :=
  qmul (qmul (inj 2) (qmul (qpow (inj (-1)) a) (qF0 a j))) (qmul (qpow qdinv m) (qadd (qmul (qpow (1, 1)%Q (a + 2 * j)) (qpow (2, 1)%Q c)) (qpow (3, 1)%Q (a + 2 * j)))).
Ltac q2r := unfold ev, qc1, qc2, qdinv; cbn [fst snd]; unfold Q2R; cbn [Qnum Qden].
Lemma ev_c1 : ev qc1 = c1. Proof. rewrite c1_val. q2r. lra. Qed.
Lemma ev_c2 : ev qc2 = c2. Proof. rewrite c2_val. q2r. lra. Qed.
Lemma ev_m1 : ev (inj (-1)) = -1. Proof. rewrite ev_inj. unfold Q2R. cbn. lra. Qed.
Lemma ev_i1 : ev (inj 1) = 1. Proof. rewrite ev_inj. unfold Q2R. cbn. lra. Qed.
Lemma ev_i2 : ev (inj 2) = 2. Proof. rewrite ev_inj. unfold Q2R. cbn. lra. Qed.
Lemma ev_q0 n : ev (q0 n) = 0 ^ n. Proof. unfold q0. rewrite ev_inj. destruct n; cbn [pow]; unfold Q2R; cbn; lra. Qed.
Lemma ev_sub1 x : ev (qsub1 x) = 1 - ev x ^ 2. Proof. unfold qsub1. rewrite ev_add, !ev_mul, ev_i1, ev_m1. ring. Qed.
Lemma even_m1 n : (-1) ^ (2 * n) = 1. Proof. rewrite pow_mult. replace ((-1) ^ 2) with 1 by ring. apply pow1. Qed.
Lemma zero_2j j : 0 ^ (2 * j) = 0 ^ j. Proof. destruct j; [reflexivity|]. rewrite !pow_i by lia. reflexivity. Qed.
Lemma ev_F0 a j : ev (qF0 a j) = F0 a (2 * j).
Proof. unfold qF0, F0. rewrite !ev_add, !ev_mul, !ev_add, !ev_mul, !ev_pow, !ev_sub1, ev_q0, ev_c1, ev_c2, ev_i2, even_m1, zero_2j, !pow_mult, s1_sq, s2_sq. ring. Qed.
Lemma sqrt_inv n : 0 < n -> forall p q x y a b m, (a + b = 2 * m)%nat -> x = p / sqrt n -> y = q / sqrt n -> x ^ a * y ^ b = p ^ a * q ^ b * (/ n) ^ m.
Proof.
  intros N p q x y a b m E -> ->. pose proof (sqrt_lt_R0 n N) as W. unfold Rdiv. rewrite !Rpow_mult_distr. rewrite <- (sqrt_sqrt n) at 3 by lra.
  transitivity (p ^ a * q ^ b * (/ sqrt n) ^ (a + b)); [rewrite pow_add; ring|]. rewrite E, pow_mult. f_equal. f_equal. field. lra.
Qed.
Lemma dinv : / (15 + 6 * sqrt 5) = ev qdinv.
Proof. q2r. pose proof five as V. pose proof (sqrt_lt_R0 5 ltac:(lra)). apply Rmult_eq_reg_l with (15 + 6 * sqrt 5); [|lra]. rewrite Rinv_r by lra. nra. Qed.
Lemma parity_one a c j m : (a + 2 * j + c = 2 * m)%nat -> (-1) ^ a * (-1) ^ c = 1.
Proof. intros E. rewrite <- pow_add. assert (X : (-1) ^ (a + c) * (-1) ^ (2 * j) = 1) by (rewrite <- pow_add; replace (a + c + 2 * j)%nat with (2 * m)%nat by lia; apply even_m1). rewrite even_m1 in X. lra. Qed.
Lemma q12_correct a j c m : (a + 2 * j + c = 2 * m)%nat -> total shell12 (mono a (2 * j) c) = ev (q12 a j c m).
Proof.
  intros E. rewrite shell12_total, (parity_one a c j m E). destruct ico_angle as [SA CA].
  rewrite (sqrt_inv 5 ltac:(lra) 2 1 _ _ _ _ m E SA CA). unfold q12. rewrite !ev_add, !ev_mul, !ev_add, !ev_pow, ev_F0, ev_i1, ev_i2, ev_m1, !ev_q0, zero_2j, pow1. replace (ev (inj (1 # 5))) with (/ 5) by (rewrite ev_inj; unfold Q2R; cbn; lra). ring.
Qed.
Lemma q20_correct a j c m : (a + 2 * j + c = 2 * m)%nat -> total shell20 (mono a (2 * j) c) = ev (q20 a j c m).
Proof.
  intros E. rewrite shell20_total, (parity_one a c j m E). destruct theta1_values as [C1 S1], theta2_values as [C2 S2].
  assert (N : 0 < 15 + 6 * sqrt 5) by (pose proof (sqrt_lt_R0 5 ltac:(lra)); lra).
  unfold ico_down in *. rewrite (sqrt_inv _ N _ _ _ _ _ _ m E S1 C1), (sqrt_inv _ N _ _ _ _ _ _ m E S2 C2). unfold q20. rewrite !ev_mul, !ev_add, !ev_mul, !ev_pow, ev_F0, ev_i2, ev_m1, dinv, pow1.
  replace (ev (1, 1)%Q) with (1 + sqrt 5) by (unfold ev, Q2R; cbn; lra). replace (ev (2, 1)%Q) with (2 + sqrt 5) by (unfold ev, Q2R; cbn; lra). replace (ev (3, 1)%Q) with (3 + sqrt 5) by (unfold ev, Q2R; cbn; lra). ring.
Qed.
(** the exact moments *)
Fixpoint qodds (i : nat) : Q := match i with O => 1 | Datatypes.S k => qodds k * inject_Z (Z.of_nat (2 * k + 1)) end%Q.
Fixpoint qdens (i : nat) : Q := match i with O => 1 | Datatypes.S k => qdens k * inject_Z (Z.of_nat (2 * k + 3)) end%Q.
Lemma Q2R_nat n : Q2R (inject_Z (Z.of_nat n)) = INR n. Proof. unfold Q2R. cbn [inject_Z Qnum Qden]. rewrite <- INR_IZR_INZ. lra. Qed.
Lemma qodds_odds i : Q2R (qodds i) = odds i. Proof. induction i as [|i IH]; cbn [qodds odds]; [apply RMicromega.Q2R_1|]. rewrite Q2R_mult, IH, Q2R_nat. reflexivity. Qed.
Lemma qdens_dens i : Q2R (qdens i) = dens i. Proof. induction i as [|i IH]; cbn [qdens dens]; [apply RMicromega.Q2R_1|]. rewrite Q2R_mult, IH, Q2R_nat. reflexivity. Qed.
(** a check over one degree: the rule's moment times the denominator is the numerator *)
Definition moment_ok (w12 w20 : Q) (a j c m : nat) : bool :=
  let v := qmul (inj (qdens m)) (qadd (qmul (inj w12) (q12 a j c m)) (qmul (inj w20) (q20 a j c m))) in
  let t := (if Nat.even a then qodds (Nat.div2 a) * qodds j * qodds (Nat.div2 c) else 0)%Q in
  Qeq_bool (fst v) t && Qeq_bool (snd v) 0.
Definition moments_ok (w12 w20 : Q) (d : nat) : bool :=
  forallb (fun a => forallb (fun j => forallb (fun c => let s := (a + 2 * j + c)%nat in if (Nat.even s && (s <=? d)%nat)%bool then moment_ok w12 w20 a j c (Nat.div2 s) else true) (seq 0 (Datatypes.S d))) (seq 0 (Datatypes.S d))) (seq 0 (Datatypes.S d)).
Lemma moments_12 : moments_ok (1 # 12) 0 5 = true. Proof. vm_compute. reflexivity. Qed.
Lemma moments_32 : moments_ok (5 # 168) (27 # 840) 9 = true. Proof. vm_compute. reflexivity. Qed.
Lemma moment_ok_correct w12 w20 a j c m : (a + 2 * j + c = 2 * m)%nat -> moment_ok w12 w20 a j c m = true -> (Q2R w12 * total shell12 (mono a (2 * j) c) + Q2R w20 * total shell20 (mono a (2 * j) c)) * 4 * PI = mom a (2 * j) c.
Proof.
  intros E K. rewrite (q12_correct a j c m E), (q20_correct a j c m E). unfold moment_ok in K. cbv zeta in K. apply andb_prop in K. destruct K as [K1 K2]. apply Qeq_bool_eq in K1, K2. apply Qeq_eqR in K1, K2. rewrite RMicromega.Q2R_0 in K2.
  set (v := qmul _ _) in *. assert (V : ev v = dens m * (Q2R w12 * ev (q12 a j c m) + Q2R w20 * ev (q20 a j c m))) by (unfold v; rewrite ev_mul, ev_add, !ev_mul, !ev_inj, qdens_dens; reflexivity).
  assert (W : ev v = Q2R (fst v)) by (unfold ev; rewrite K2; ring). rewrite W, K1 in V. clear W K1 K2. pose proof (dens_pos m) as DP.
  destruct (Nat.even a) eqn:EA.
  - apply Nat.even_spec in EA. destruct EA as [i ->]. assert (exists k, c = 2 * k)%nat as [k ->] by (exists (m - i - j)%nat; lia). rewrite !Nat.div2_double, !Q2R_mult, !qodds_odds in V. rewrite mom_even. replace (i + j + k)%nat with m by lia. 
    set (X := Q2R w12 * _ + _) in *. clearbody X. replace X with (odds i * odds j * odds k / dens m); [ring|]. apply Rmult_eq_reg_l with (dens m); [|lra]. rewrite <- V. field. lra.
  - rewrite RMicromega.Q2R_0 in V. rewrite mom_odd by (left; rewrite <- Nat.odd_spec, <- Nat.negb_even, EA; reflexivity). set (X := Q2R w12 * _ + _) in *. clearbody X. replace X with 0; [ring|]. apply Rmult_eq_reg_l with (dens m); lra.
Qed.
Lemma F0_odd a b : Nat.Odd b -> F0 a b = 0.
Proof. intros [k ->]. unfold F0. rewrite !pow_add, even_m1. cbn [pow]. replace (2 * k)%nat with (k + k)%nat by lia. rewrite !pow_add. ring. Qed.
Lemma shells_moments w12 w20 d : moments_ok w12 w20 d = true -> forall a b c, (a + b + c <= d)%nat -> (Q2R w12 * total shell12 (mono a b c) + Q2R w20 * total shell20 (mono a b c)) * 4 * PI = mom a b c.
Proof.
  intros K a b c D. destruct (Nat.Even_or_Odd b) as [EB|OB].
  - destruct EB as [j ->]. destruct (Nat.Even_or_Odd (a + 2 * j + c)) as [ES|OS].
    + destruct ES as [m ES]. apply (moment_ok_correct _ _ _ _ _ m ES). unfold moments_ok in K. rewrite forallb_forall in K. specialize (K a ltac:(apply in_seq; lia)). rewrite forallb_forall in K. specialize (K j ltac:(apply in_seq; lia)). rewrite forallb_forall in K. specialize (K c ltac:(apply in_seq; lia)).
      cbv zeta in K. rewrite ES in K. rewrite Nat.div2_double in K. replace (Nat.even (2 * m)) with true in K by (symmetry; apply Nat.even_spec; exists m; reflexivity). replace (2 * m <=? d)%nat with true in K by (symmetry; apply Nat.leb_le; lia). exact K.
    + assert (O : Nat.Odd a \/ Nat.Odd c). { destruct (Nat.Even_or_Odd a) as [[x ->]|?]; [|auto]. destruct (Nat.Even_or_Odd c) as [[y ->]|?]; [|auto]. destruct OS as [z Z]. lia. }
      rewrite mom_odd by tauto. rewrite shell12_total, shell20_total. assert (P : (-1) ^ a * (-1) ^ c = -1). { rewrite <- pow_add. destruct OS as [z Z]. assert (X : (-1) ^ (a + c) * (-1) ^ (2 * j) = -1) by (rewrite <- pow_add; replace (a + c + 2 * j)%nat with (2 * z + 1)%nat by lia; rewrite pow_add, even_m1; ring). rewrite even_m1 in X. lra. }
      rewrite P. assert (Z : (1 + (-1) ^ c) * (0 ^ a * 0 ^ (2 * j)) = 0). { destruct a as [|a]; [|rewrite (pow_i (Datatypes.S a)) by lia; ring]. destruct O as [[x X]|[x ->]]; [lia|]. rewrite pow_add, even_m1. ring. }
      rewrite Z. ring.
  - rewrite mom_odd by auto. rewrite shell12_total, shell20_total, (F0_odd a b OB). destruct OB as [x ->]. rewrite (pow_i (2 * x + 1)) by lia. ring.
Qed.
Definition ico_degree (n : nat) : nat := match n with 12%nat => 5 | _ => 9 end.
Lemma shell_lengths : length shell12 = 12%nat /\ length shell20 = 20%nat. Proof. split; reflexivity. Qed.
Lemma ico_cases n q : icosahedron n = Some q -> (n = 12%nat /\ q = {| pts := shell12; coefs := repeat (1 / 12) 12 |}) \/ (n = 32%nat /\ q = {| pts := shell12 ++ shell20; coefs := repeat (5 / 168) 12 ++ repeat (27 / 840) 20 |}).
Proof.
  unfold icosahedron. intros H. assert (N : n = 12%nat \/ n = 32%nat).
  { destruct (ico_coefs n) eqn:C; [|discriminate]. do 33 (destruct n as [|n]; [cbn in C; auto; congruence|]). cbn in C. congruence. }
  destruct N as [-> | ->]; [left|right]; (split; [reflexivity|]); cbn [ico_coefs] in H.
  - assert (E : firstn 12 polars = [(0, 0); (PI, 0)] ++ ring (atan 2) even_az ++ ring (PI - atan 2) odd_az) by reflexivity. rewrite E in H. unfold shell12. congruence.
  - assert (E : firstn 32 polars = ([(0, 0); (PI, 0)] ++ ring (atan 2) even_az ++ ring (PI - atan 2) odd_az) ++ ring theta1 odd_az ++ ring theta2 odd_az ++ ring (PI - theta1) even_az ++ ring (PI - theta2) even_az) by reflexivity. rewrite E, map_app in H. unfold shell12, shell20. congruence.
Qed.
Lemma ico_exact n q : icosahedron n = Some q -> exact q (ico_degree n).
Proof.
  intros Q. apply exact_moments. destruct shell_lengths as [L1 L2]. destruct (ico_cases n q Q) as [[-> ->]|[-> ->]]; cbn [coefs pts ico_degree]; intros a b c D.
  - rewrite wsum_repeat by (symmetry; exact L1). rewrite <- (shells_moments _ _ _ moments_12 a b c D). rewrite RMicromega.Q2R_0. replace (Q2R (1 # 12)) with (1 / 12) by (unfold Q2R; cbn; lra). ring.
  - rewrite wsum_app by (rewrite repeat_length; symmetry; exact L1). rewrite !wsum_repeat by (symmetry; assumption). rewrite <- (shells_moments _ _ _ moments_32 a b c D). replace (Q2R (5 # 168)) with (5 / 168) by (unfold Q2R; cbn; lra). replace (Q2R (27 # 840)) with (27 / 840) by (unfold Q2R; cbn; lra). ring.
Qed.
