(** Moments of the unit sphere and invariance of the surface integral of polynomials. *)
From Coq Require Import Reals List Arith Lia Lra.
From Coquelicot Require Import Coquelicot.
From Verif Require Import Quad_Spec.
Import ListNotations.
Open Scope R_scope.
Local Notation RNM := R_NormedModule.

(** ** One-dimensional integrals *)
Definition trig (a b : nat) (phi : R) : R := cos phi ^ a * sin phi ^ b.
Lemma continuous_trig a b x : continuous (trig a b) x.
Proof. unfold trig. apply (ex_derive_continuous (fun phi => cos phi ^ a * sin phi ^ b)). auto_derive. auto. Qed.
Lemma trig_ex a b u v : ex_RInt (trig a b) u v.
Proof. apply (@ex_RInt_continuous R_CompleteNormedModule). intros z _. apply continuous_trig. Qed.
Definition S (a b : nat) : R := RInt (trig a b) 0 (2 * PI).
Lemma S_is a b : is_RInt (trig a b) 0 (2 * PI) (S a b).
Proof. apply (@RInt_correct R_CompleteNormedModule), trig_ex. Qed.
Lemma is_RInt_eq {f g : R -> R} {a b u v} : (forall x, f x = g x) -> is_RInt f a b u -> is_RInt g a b v -> u = v.
Proof. intros E H1 H2. assert (H3 : is_RInt g a b u) by (eapply (@is_RInt_ext RNM); [|exact H1]; intros; apply E). rewrite <- (@is_RInt_unique R_CompleteNormedModule _ _ _ _ H2). symmetry. apply (@is_RInt_unique R_CompleteNormedModule), H3. Qed.
Lemma is_RInt_lin (f g : R -> R) a b u v x y : is_RInt f a b u -> is_RInt g a b v -> is_RInt (fun t => x * f t + y * g t) a b (x * u + y * v).
Proof. intros F G. apply (@is_RInt_plus RNM); apply (@is_RInt_scal RNM); assumption. Qed.
Lemma S_split a b : S (a + 2) b + S a (b + 2) = S a b.
Proof.
  pose proof (is_RInt_lin _ _ _ _ _ _ 1 1 (S_is (a + 2) b) (S_is a (b + 2))) as H. rewrite !Rmult_1_l in H. refine (is_RInt_eq _ H (S_is a b)).
  intros x. unfold trig. rewrite !pow_add. pose proof (sin2_cos2 x) as E. unfold Rsqr in E. replace (1 * (cos x ^ a * cos x ^ 2 * sin x ^ b) + 1 * (cos x ^ a * (sin x ^ b * sin x ^ 2))) with (cos x ^ a * sin x ^ b * (sin x * sin x + cos x * cos x)) by ring. rewrite E. ring.
Qed.
Lemma S_parts a b : INR (a + 1) * S a (b + 2) = INR (b + 1) * S (a + 2) b.
Proof.
  pose proof (is_RInt_lin _ _ _ _ _ _ (- INR (a + 1)) (INR (b + 1)) (S_is a (b + 2)) (S_is (a + 2) b)) as H.
  assert (D : is_RInt (fun x => - INR (a + 1) * trig a (b + 2) x + INR (b + 1) * trig (a + 2) b x) 0 (2 * PI) (minus (trig (a + 1) (b + 1) (2 * PI)) (trig (a + 1) (b + 1) 0))).
  { apply (@is_RInt_derive R_CompleteNormedModule).
    - intros x _. unfold trig. auto_derive; [auto|]. rewrite !Nat.add_1_r. cbn [Nat.pred]. rewrite !pow_add. cbn [pow]. ring.
    - intros x _. apply (@continuous_plus R_UniformSpace); apply (@continuous_scal_r R_UniformSpace R_AbsRing RNM); apply continuous_trig. }
  assert (E : minus (trig (a + 1) (b + 1) (2 * PI)) (trig (a + 1) (b + 1) 0) = 0).
  { unfold trig. rewrite sin_2PI, sin_0, !(Nat.add_1_r b). unfold minus, plus, opp. cbn. ring. }
  rewrite E in D. pose proof (is_RInt_eq (fun _ => eq_refl) H D). lra.
Qed.
Lemma S_step a b : S (a + 2) b = INR (a + 1) / INR (a + b + 2) * S a b.
Proof.
  pose proof (S_split a b) as H1. pose proof (S_parts a b) as H2. rewrite <- H1. assert (P : 0 < INR (a + b + 2)) by (apply lt_0_INR; lia). replace (INR (a + b + 2)) with (INR (a + 1) + INR (b + 1)) in * by (rewrite <- plus_INR; f_equal; lia).
  apply Rmult_eq_reg_l with (INR (a + 1) + INR (b + 1)); [|lra]. field_simplify; [|lra]. nra.
Qed.
Lemma S_step' a b : S a (b + 2) = INR (b + 1) / INR (a + b + 2) * S a b.
Proof.
  pose proof (S_split a b) as H1. pose proof (S_parts a b) as H2. rewrite <- H1. assert (P : 0 < INR (a + b + 2)) by (apply lt_0_INR; lia). replace (INR (a + b + 2)) with (INR (a + 1) + INR (b + 1)) in * by (rewrite <- plus_INR; f_equal; lia).
  apply Rmult_eq_reg_l with (INR (a + 1) + INR (b + 1)); [|lra]. field_simplify; [|lra]. nra.
Qed.
Lemma S_0_0 : S 0 0 = 2 * PI.
Proof. pose proof (@is_RInt_const RNM 0 (2 * PI) 1) as H. unfold scal in H; cbn in H; unfold mult in H; cbn in H. assert (E : (2 * PI - 0) * 1 = 2 * PI) by ring. rewrite <- E. refine (is_RInt_eq _ (S_is 0 0) H). intros x. unfold trig. cbn. ring. Qed.
Lemma S_1_b b : S 1 b = 0.
Proof.
  assert (D : is_RInt (trig 1 b) 0 (2 * PI) (minus (sin (2 * PI) ^ (b + 1) / INR (b + 1)) (sin 0 ^ (b + 1) / INR (b + 1)))).
  { apply (@is_RInt_derive R_CompleteNormedModule (fun x => sin x ^ (b + 1) / INR (b + 1))); [|intros x _; apply continuous_trig].
    intros x _. assert (P : INR (b + 1) <> 0) by (apply not_0_INR; lia). auto_derive; [auto|]. rewrite Nat.add_1_r. cbn [Nat.pred]. unfold trig. rewrite Nat.add_1_r in P. field. exact P. }
  rewrite sin_2PI, sin_0, Nat.add_1_r in D. unfold minus, plus, opp in D. cbn in D. rewrite (is_RInt_eq (fun _ => eq_refl) (S_is 1 b) D). rewrite Rmult_0_l. unfold Rdiv. ring.
Qed.
Lemma S_a_1 a : S a 1 = 0.
Proof.
  assert (D : is_RInt (trig a 1) 0 (2 * PI) (minus (- cos (2 * PI) ^ (a + 1) / INR (a + 1)) (- cos 0 ^ (a + 1) / INR (a + 1)))).
  { apply (@is_RInt_derive R_CompleteNormedModule (fun x => - cos x ^ (a + 1) / INR (a + 1))); [|intros x _; apply continuous_trig].
    intros x _. assert (P : INR (a + 1) <> 0) by (apply not_0_INR; lia). auto_derive; [auto|]. rewrite Nat.add_1_r. cbn [Nat.pred]. unfold trig. rewrite Nat.add_1_r in P. field. exact P. }
  rewrite cos_2PI, cos_0 in D. rewrite (is_RInt_eq (fun _ => eq_refl) (S_is a 1) D). unfold minus, plus, opp. cbn. ring.
Qed.
(** parity *)
Lemma parity_ind (P : nat -> Prop) : P 0%nat -> P 1%nat -> (forall n, P n -> P (n + 2)%nat) -> forall n, P n.
Proof. intros H0 H1 H2 n. assert (A : P n /\ P (n + 1)%nat) by (induction n as [|n [IH1 IH2]]; [auto|]; replace (Datatypes.S n) with (n + 1)%nat by lia; split; [auto|]; replace (n + 1 + 1)%nat with (n + 2)%nat by lia; auto). apply A. Qed.
Lemma S_odd_a : forall a b, Nat.Odd a -> S a b = 0.
Proof.
  induction a as [| |a IH] using parity_ind; intros b O; [destruct O; lia|apply S_1_b|]. rewrite S_step, IH; [ring|]. destruct O as [k K]. exists (k - 1)%nat. lia.
Qed.
Lemma S_odd_b : forall b a, Nat.Odd b -> S a b = 0.
Proof.
  induction b as [| |b IH] using parity_ind; intros a O; [destruct O; lia|apply S_a_1|]. rewrite S_step', IH; [ring|]. destruct O as [k K]. exists (k - 1)%nat. lia.
Qed.

Definition zpow (n c : nat) (z : R) : R := sqrt (1 - z * z) ^ n * z ^ c.
Lemma continuous_zpow n c x : continuous (zpow n c) x.
Proof.
  unfold zpow. apply (@continuous_mult R_UniformSpace R_AbsRing).
  - induction n as [|n IH]; [apply continuous_const|]. cbn [pow]. apply (@continuous_mult R_UniformSpace R_AbsRing); [|exact IH]. apply (continuous_comp (fun z => 1 - z * z) sqrt); [|apply continuous_sqrt].
    apply (ex_derive_continuous (fun z => 1 - z * z)). auto_derive. auto.
  - apply (ex_derive_continuous (fun z => z ^ c)). auto_derive. auto.
Qed.
Definition T (n c : nat) : R := RInt (zpow n c) (-1) 1.
Lemma T_is n c : is_RInt (zpow n c) (-1) 1 (T n c).
Proof. apply (@RInt_correct R_CompleteNormedModule). apply (@ex_RInt_continuous R_CompleteNormedModule). intros z _. apply continuous_zpow. Qed.
Lemma zpow_even m c z : -1 <= z <= 1 -> zpow (2 * m) c z = (1 - z * z) ^ m * z ^ c.
Proof. intros H. unfold zpow. rewrite pow_mult. replace (sqrt (1 - z * z) ^ 2) with (1 - z * z); [reflexivity|]. rewrite <- Rsqr_pow2. symmetry. apply Rsqr_sqrt. nra. Qed.
Definition P (m c : nat) (z : R) : R := (1 - z * z) ^ m * z ^ c.
Lemma P_is m c : is_RInt (P m c) (-1) 1 (T (2 * m) c).
Proof. eapply (@is_RInt_ext RNM); [|apply T_is]. intros x [A B]. rewrite Rmin_left in A by lra. rewrite Rmax_right in B by lra. apply zpow_even. lra. Qed.
Lemma continuous_P m c x : continuous (P m c) x.
Proof. apply (ex_derive_continuous (fun z => (1 - z * z) ^ m * z ^ c)). auto_derive. auto. Qed.
Lemma T_split m c : T (2 * (m + 1)) c = T (2 * m) c - T (2 * m) (c + 2).
Proof.
  pose proof (is_RInt_lin _ _ _ _ _ _ 1 (-1) (P_is m c) (P_is m (c + 2))) as H. replace (T (2 * m) c - T (2 * m) (c + 2)) with (1 * T (2 * m) c + -1 * T (2 * m) (c + 2)) by ring. refine (is_RInt_eq _ (P_is (m + 1) c) H).
  intros x. unfold P. rewrite !pow_add. ring.
Qed.
Lemma T_parts m c : 2 * INR (m + 1) * T (2 * m) (c + 2) = INR (c + 1) * T (2 * (m + 1)) c.
Proof.
  pose proof (is_RInt_lin _ _ _ _ _ _ (- (2 * INR (m + 1))) (INR (c + 1)) (P_is m (c + 2)) (P_is (m + 1) c)) as H.
  assert (D : is_RInt (fun x => - (2 * INR (m + 1)) * P m (c + 2) x + INR (c + 1) * P (m + 1) c x) (-1) 1 (minus (P (m + 1) (c + 1) 1) (P (m + 1) (c + 1) (-1)))).
  { apply (@is_RInt_derive R_CompleteNormedModule).
    - intros x _. unfold P. auto_derive; [auto|]. rewrite !Nat.add_1_r. cbn [Nat.pred]. rewrite !pow_add. cbn [pow]. fold (1 - x * x). generalize ((1 - x * x) ^ m) as w. intros w. ring.
    - intros x _. apply (@continuous_plus R_UniformSpace); apply (@continuous_scal_r R_UniformSpace R_AbsRing RNM); apply continuous_P. }
  assert (E : minus (P (m + 1) (c + 1) 1) (P (m + 1) (c + 1) (-1)) = 0).
  { unfold P. rewrite !(Nat.add_1_r m). unfold minus, plus, opp. cbn [pow]. cbn. ring. }
  rewrite E in D. pose proof (is_RInt_eq (fun _ => eq_refl) H D). lra.
Qed.
Lemma T_step_c m c : T (2 * m) (c + 2) = INR (c + 1) / INR (2 * m + c + 3) * T (2 * m) c.
Proof.
  pose proof (T_split m c) as H1. pose proof (T_parts m c) as H2. rewrite H1 in H2. assert (Q : INR (2 * m + c + 3) = 2 * INR (m + 1) + INR (c + 1)) by (rewrite !plus_INR, mult_INR; cbn; ring). assert (PQ : 0 < INR (2 * m + c + 3)) by (apply lt_0_INR; lia).
  apply Rmult_eq_reg_l with (INR (2 * m + c + 3)); [|lra]. replace (INR (2 * m + c + 3) * (INR (c + 1) / INR (2 * m + c + 3) * T (2 * m) c)) with (INR (c + 1) * T (2 * m) c) by (field; lra). rewrite Q. lra.
Qed.
Lemma T_step_m m c : T (2 * (m + 1)) c = INR (2 * m + 2) / INR (2 * m + c + 3) * T (2 * m) c.
Proof.
  rewrite T_split, T_step_c. assert (PQ : INR (2 * m + c + 3) = INR (2 * m + 2) + INR (c + 1)) by (rewrite <- plus_INR; f_equal; lia). assert (PP : 0 < INR (2 * m + c + 3)) by (apply lt_0_INR; lia).
  apply Rmult_eq_reg_l with (INR (2 * m + c + 3)); [|lra]. field_simplify; [|lra|lra]. rewrite PQ. ring.
Qed.
Lemma T_0_0 : T 0 0 = 2.
Proof. pose proof (@is_RInt_const RNM (-1) 1 1) as H. unfold scal in H; cbn in H; unfold mult in H; cbn in H. assert (E : (1 - -1) * 1 = 2) by ring. rewrite <- E. refine (is_RInt_eq _ (T_is 0 0) H). intros x. unfold zpow. cbn. ring. Qed.
Lemma T_0_1 : T 0 1 = 0.
Proof.
  assert (D : is_RInt (P 0 1) (-1) 1 (minus (1 ^ 2 / 2) ((-1) ^ 2 / 2))). { apply (@is_RInt_derive R_CompleteNormedModule (fun x => x ^ 2 / 2)); [|intros x _; apply continuous_P]. intros x _. auto_derive; [auto|]. unfold P. cbn. field. }
  pose proof (is_RInt_eq (fun _ => eq_refl) (P_is 0 1) D) as E. change (T (2 * 0) 1) with (T 0 1) in E. rewrite E. unfold minus, plus, opp. cbn. field.
Qed.
Lemma T_odd_c : forall c m, Nat.Odd c -> T (2 * m) c = 0.
Proof.
  induction c as [| |c IH] using parity_ind; intros m O; [destruct O; lia| |rewrite T_step_c, IH; [ring|]; destruct O as [k K]; exists (k - 1)%nat; lia].
  induction m as [|m IHm]; [exact T_0_1|]. replace (Datatypes.S m) with (m + 1)%nat by lia. rewrite T_step_m, IHm. ring.
Qed.

(** ** Moments of the sphere *)
Definition mom (a b c : nat) : R := S a b * T (a + b) c.
Lemma mono_is k a b c : sphere_integral (fun x y z => k * (x ^ a * y ^ b * z ^ c)) (k * mom a b c).
Proof.
  exists (fun phi => k * trig a b phi * T (a + b) c). split.
  - intros phi. eapply (@is_RInt_ext RNM); [|apply (@is_RInt_scal RNM _ _ _ (k * trig a b phi) _ (T_is (a + b) c))]. intros z _. unfold on_sphere, zpow, trig, scal. cbn. unfold mult. cbn. rewrite !Rpow_mult_distr, pow_add. ring.
  - eapply (@is_RInt_ext RNM); [|replace (k * mom a b c) with (scal (k * T (a + b) c) (S a b)) by (unfold mom, scal; cbn; unfold mult; cbn; ring); apply (@is_RInt_scal RNM), S_is]. intros x _. unfold scal. cbn. unfold mult. cbn. ring.
Qed.
Lemma mom_odd a b c : Nat.Odd a \/ Nat.Odd b \/ Nat.Odd c -> mom a b c = 0.
Proof.
  intros H. unfold mom. destruct (Nat.Even_or_Odd a) as [EA|OA]; [|rewrite S_odd_a by assumption; ring]. destruct (Nat.Even_or_Odd b) as [EB|OB]; [|rewrite S_odd_b by assumption; ring].
  destruct H as [O|[O|O]]; [destruct (Nat.Even_Odd_False a EA O)|destruct (Nat.Even_Odd_False b EB O)|]. destruct EA as [i ->], EB as [j ->]. replace (2 * i + 2 * j)%nat with (2 * (i + j))%nat by lia. rewrite T_odd_c by assumption. ring.
Qed.
Lemma mom_step_c a b c : Nat.Even a -> Nat.Even b -> mom a b (c + 2) = INR (c + 1) / INR (a + b + c + 3) * mom a b c.
Proof. intros [i ->] [j ->]. unfold mom. replace (2 * i + 2 * j)%nat with (2 * (i + j))%nat by lia. rewrite T_step_c. ring. Qed.
Lemma mom_step_a a b c : Nat.Even a -> Nat.Even b -> mom (a + 2) b c = INR (a + 1) / INR (a + b + c + 3) * mom a b c.
Proof.
  intros [i ->] [j ->]. unfold mom. rewrite S_step. replace (2 * i + 2 + 2 * j)%nat with (2 * (i + j + 1))%nat by lia. rewrite T_step_m. replace (2 * i + 2 * j)%nat with (2 * (i + j))%nat by lia.
  assert (INR (2 * (i + j) + 2) <> 0) by (apply not_0_INR; lia). assert (INR (2 * (i + j) + c + 3) <> 0) by (apply not_0_INR; lia). field. auto.
Qed.
Lemma mom_step_b a b c : Nat.Even a -> Nat.Even b -> mom a (b + 2) c = INR (b + 1) / INR (a + b + c + 3) * mom a b c.
Proof.
  intros [i ->] [j ->]. unfold mom. rewrite S_step'. replace (2 * i + (2 * j + 2))%nat with (2 * (i + j + 1))%nat by lia. rewrite T_step_m. replace (2 * i + 2 * j)%nat with (2 * (i + j))%nat by lia.
  assert (INR (2 * (i + j) + 2) <> 0) by (apply not_0_INR; lia). assert (INR (2 * (i + j) + c + 3) <> 0) by (apply not_0_INR; lia). field. auto.
Qed.
Lemma mom_0 : mom 0 0 0 = 4 * PI. Proof. unfold mom. cbn [Nat.add]. rewrite S_0_0, T_0_0. ring. Qed.
(** closed form on even exponents: a ratio of double factorials *)
Fixpoint odds (i : nat) : R := match i with O => 1 | Datatypes.S k => odds k * INR (2 * k + 1) end.
Fixpoint dens (i : nat) : R := match i with O => 1 | Datatypes.S k => dens k * INR (2 * k + 3) end.
Lemma dens_pos i : 0 < dens i. Proof. induction i as [|i IH]; cbn [dens]; [lra|]. apply Rmult_lt_0_compat; [exact IH|apply lt_0_INR; lia]. Qed.
Lemma mom_even i j k : mom (2 * i) (2 * j) (2 * k) = 4 * PI * (odds i * odds j * odds k / dens (i + j + k)).
Proof.
  assert (E : forall n, Nat.Even (2 * n)) by (intros n; exists n; reflexivity).
  assert (STEP : forall n d x, INR (2 * n + 1) / INR (2 * d + 3) * (x / dens d) = x * INR (2 * n + 1) / dens (Datatypes.S d)).
  { intros n d x. cbn [dens]. pose proof (dens_pos d). assert (INR (2 * d + 3) <> 0) by (apply not_0_INR; lia). field. split; [assumption|lra]. }
  induction k as [|k IHk].
  - induction j as [|j IHj].
    + induction i as [|i IHi]; [cbn [Nat.mul odds dens Nat.add]; rewrite mom_0; field|].
      replace (2 * Datatypes.S i)%nat with (2 * i + 2)%nat by lia. rewrite mom_step_a, IHi by apply E. replace (2 * i + 2 * 0 + 2 * 0 + 3)%nat with (2 * (i + 0 + 0) + 3)%nat by lia. replace (Datatypes.S i + 0 + 0)%nat with (Datatypes.S (i + 0 + 0)) by lia.
      rewrite <- Rmult_assoc, (Rmult_comm _ (4 * PI)), Rmult_assoc, STEP. cbn [odds]. f_equal. f_equal. ring.
    + replace (2 * Datatypes.S j)%nat with (2 * j + 2)%nat by lia. rewrite mom_step_b, IHj by apply E. replace (2 * i + 2 * j + 2 * 0 + 3)%nat with (2 * (i + j + 0) + 3)%nat by lia. replace (i + Datatypes.S j + 0)%nat with (Datatypes.S (i + j + 0)) by lia.
      rewrite <- Rmult_assoc, (Rmult_comm _ (4 * PI)), Rmult_assoc, STEP. cbn [odds]. f_equal. f_equal. ring.
  - replace (2 * Datatypes.S k)%nat with (2 * k + 2)%nat by lia. rewrite mom_step_c, IHk by apply E. replace (2 * i + 2 * j + 2 * k + 3)%nat with (2 * (i + j + k) + 3)%nat by lia. replace (i + j + Datatypes.S k)%nat with (Datatypes.S (i + j + k)) by lia.
    rewrite <- Rmult_assoc, (Rmult_comm _ (4 * PI)), Rmult_assoc, STEP. cbn [odds]. f_equal. f_equal. ring.
Qed.
