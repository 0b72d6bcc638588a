(** C85: the learning-rate schedule and the KFAC step. *)
From Coq Require Import Reals List Arith Lra Lia.
From Coquelicot Require Import Coquelicot.
From Verif Require Import Lin Kfac_Spec Kfac_Model.
Import ListNotations.
Open Scope R_scope.

(** ** The schedule *)
Definition base (delay : R) (t : nat) : R := 1 / (1 + INR t / delay).
Lemma base_den delay t : 0 < delay -> 1 <= 1 + INR t / delay.
Proof. intros D. assert (0 <= INR t / delay) by (apply Rmult_le_pos; [apply pos_INR|left; apply Rinv_0_lt_compat; exact D]). lra. Qed.
Lemma base_pos delay t : 0 < delay -> 0 < base delay t.
Proof. intros D. pose proof (base_den delay t D). unfold base. apply Rdiv_lt_0_compat; lra. Qed.
Lemma base_le1 delay t : 0 < delay -> base delay t <= 1.
Proof. intros D. pose proof (base_den delay t D). unfold base. apply Rmult_le_reg_r with (1 + INR t / delay); [lra|]. unfold Rdiv at 1. rewrite Rmult_1_l, Rinv_l, Rmult_1_l by lra. exact H. Qed.
Lemma base_anti delay t t' : 0 < delay -> (t < t')%nat -> base delay t' < base delay t.
Proof.
  intros D L. pose proof (base_den delay t D). unfold base, Rdiv. rewrite !Rmult_1_l. apply Rinv_lt_contravar; [apply Rmult_lt_0_compat; pose proof (base_den delay t' D); unfold Rdiv in *; lra|].
  apply Rplus_lt_compat_l. apply Rmult_lt_compat_r; [apply Rinv_0_lt_compat; exact D|]. apply lt_INR. exact L.
Qed.
Lemma Rpower_pos x y : 0 < Rpower x y. Proof. unfold Rpower. apply exp_pos. Qed.
Lemma Rpower_mono x y p : 0 < x -> x <= y -> 0 <= p -> Rpower x p <= Rpower y p.
Proof. intros. apply Rle_Rpower_l; lra. Qed.
Lemma Rpower_1_l p : Rpower 1 p = 1.
Proof. unfold Rpower. rewrite ln_1, Rmult_0_r. apply exp_0. Qed.
(** C85: the schedule starts at [rate], stays positive, never grows, and follows rate delay / (delay + t) for the
    default exponent, so that it has halved after [delay] steps. *)
Theorem C85_schedule : forall rate delay decay, 0 < rate -> 0 < delay -> 0 <= decay ->
  standard_schedule rate delay decay 0 = rate /\
  (forall t, 0 < standard_schedule rate delay decay t <= rate) /\
  (forall t t', (t <= t')%nat -> standard_schedule rate delay decay t' <= standard_schedule rate delay decay t) /\
  (0 < decay -> forall t t', (t < t')%nat -> standard_schedule rate delay decay t' < standard_schedule rate delay decay t) /\
  (forall t, standard_schedule rate delay 1 t = rate * delay / (delay + INR t)) /\
  (forall t, INR t = delay -> standard_schedule rate delay 1 t = rate / 2) /\
  (forall t, standard_schedule rate delay 0 t = rate).
Proof.
  intros rate delay decay HR HD HP.
  assert (Z : standard_schedule rate delay decay 0 = rate).
  { unfold standard_schedule. cbn [INR]. replace (1 / (1 + 0 / delay)) with 1 by (field; lra). rewrite Rpower_1_l. lra. }
  assert (A : forall t t', (t <= t')%nat -> standard_schedule rate delay decay t' <= standard_schedule rate delay decay t).
  { intros t t' L. unfold standard_schedule. apply Rmult_le_compat_l; [lra|]. apply Rpower_mono; [apply base_pos; exact HD| |exact HP].
    destruct (Nat.eq_dec t t') as [->|N]; [lra|]. left. apply base_anti; [exact HD|lia]. }
  assert (F : forall t, standard_schedule rate delay 1 t = rate * delay / (delay + INR t)).
  { intros t. unfold standard_schedule. pose proof (pos_INR t). rewrite Rpower_1 by (apply base_pos; exact HD). field. split; lra. }
  refine (conj Z (conj _ (conj A (conj _ (conj F (conj _ _)))))).
  - intros t. split; [apply Rmult_lt_0_compat; [exact HR|apply Rpower_pos]|]. rewrite <- Z at 2. apply A. lia.
  - intros P t t' L. unfold standard_schedule. apply Rmult_lt_compat_l; [exact HR|]. apply Rlt_Rpower_l; [exact P|].
    split; [apply base_pos; exact HD|apply base_anti; assumption].
  - intros t E. rewrite F, E. field. lra.
  - intros t. unfold standard_schedule. rewrite Rpower_O by (apply base_pos; exact HD). lra.
Qed.

Definition total (f : nat -> R) (n : nat) : R := sum n f.
Definition unbounded (f : nat -> R) : Prop := forall M, exists n, M < total f n.
Definition bounded (f : nat -> R) : Prop := exists M, forall n, total f n <= M.
Lemma harmonic delay : 0 < delay -> forall n, delay * (ln (delay + INR n) - ln delay) <= sum n (base delay).
Proof.
  intros D. induction n as [|n IH]; cbn [sum]; [cbn [INR]; rewrite Rplus_0_r; lra|].
  pose proof (pos_INR n). assert (P : 0 < delay + INR n) by lra.
  assert (E : ln (delay + INR (S n)) - ln (delay + INR n) <= / (delay + INR n)).
  { rewrite S_INR. replace (delay + (INR n + 1)) with ((delay + INR n) * (1 + / (delay + INR n))) by (field; lra).
    assert (Q : 0 < / (delay + INR n)) by (apply Rinv_0_lt_compat; exact P).
    rewrite ln_mult by lra. assert (ln (1 + / (delay + INR n)) <= / (delay + INR n)); [|lra].
    rewrite <- (ln_exp (/ (delay + INR n))) at 2. left. apply ln_increasing; [lra|]. apply exp_ineq1. lra. }
  assert (B : base delay n = delay * / (delay + INR n)) by (unfold base; field; lra).
  rewrite B. apply Rmult_le_compat_l with (r := delay) in E; [|lra]. lra.
Qed.
Lemma powers_unbounded delay q : 0 < delay -> 0 <= q -> q <= 1 -> unbounded (fun t => Rpower (base delay t) q).
Proof.
  intros D Q0 Q1 M.
  assert (X : exists n, exp (M / delay + ln delay) < INR n).
  { exists (Z.to_nat (up (exp (M / delay + ln delay)))). pose proof (archimed (exp (M / delay + ln delay))) as [A _]. pose proof (exp_pos (M / delay + ln delay)).
    rewrite INR_IZR_INZ, Z2Nat.id; [exact A|]. apply le_IZR. lra. }
  destruct X as [n N]. exists n. apply Rlt_le_trans with (sum n (base delay)).
  - apply Rlt_le_trans with (delay * (ln (delay + INR n) - ln delay)); [|apply harmonic; exact D].
    assert (L : M / delay + ln delay < ln (delay + INR n)).
    { rewrite <- (ln_exp (M / delay + ln delay)). apply ln_increasing; [apply exp_pos|lra]. }
    apply Rmult_lt_reg_r with (/ delay); [apply Rinv_0_lt_compat; exact D|]. replace (delay * (ln (delay + INR n) - ln delay) * / delay) with (ln (delay + INR n) - ln delay) by (field; lra).
    unfold Rdiv in L. lra.
  - apply sum_le. intros t _. pose proof (base_pos delay t D). pose proof (base_le1 delay t D).
    rewrite <- (Rpower_1 (base delay t)) at 1 by assumption. unfold Rpower.
    assert (LN : ln (base delay t) <= 0) by (destruct H0 as [H0| ->]; [left; rewrite <- ln_1; apply ln_increasing; assumption|rewrite ln_1; lra]).
    assert (LE : 1 * ln (base delay t) <= q * ln (base delay t)).
    { assert (0 <= (1 - q) * - ln (base delay t)) by (apply Rmult_le_pos; lra). lra. }
    destruct LE as [LE| ->]; [left; apply exp_increasing; exact LE|lra].
Qed.
Lemma power_derive delay q s : 0 < delay -> 0 <= s -> 1 < q ->
  is_derive (fun x => - (delay / (q - 1)) * Rpower (1 + x / delay) (1 - q)) s (Rpower (1 + s / delay) (- q)).
Proof.
  intros D S Q. assert (P : 0 < 1 + s / delay). { assert (0 <= s / delay) by (apply Rmult_le_pos; [exact S|left; apply Rinv_0_lt_compat; exact D]). lra. }
  unfold Rpower. auto_derive; [exact P|].
  replace (- q * ln (1 + s / delay)) with ((1 - q) * ln (1 + s / delay) + - ln (1 + s / delay)) by ring.
  rewrite exp_plus, exp_Ropp, exp_ln by exact P. unfold Rdiv in *. field. lra.
Qed.
Lemma powers_bounded delay q : 0 < delay -> 1 < q -> forall n, sum n (fun t => Rpower (base delay t) q) <= 1 + delay / (q - 1).
Proof.
  intros D Q. set (F := fun x => - (delay / (q - 1)) * Rpower (1 + x / delay) (1 - q)).
  assert (BP : forall t, Rpower (base delay t) q = Rpower (1 + INR t / delay) (- q)).
  { intros t. unfold base, Rpower. pose proof (base_den delay t D). unfold Rdiv at 1. rewrite Rmult_1_l, ln_Rinv by lra. f_equal. ring. }
  assert (K : forall n, sum (S n) (fun t => Rpower (base delay t) q) <= 1 + (F (INR n) - F 0)).
  { induction n as [|n IH].
    - cbn [sum]. rewrite BP. cbn [INR]. replace (1 + 0 / delay) with 1 by (field; lra). rewrite Rpower_1_l. lra.
    - change (sum (S (S n)) (fun t => Rpower (base delay t) q)) with (sum (S n) (fun t => Rpower (base delay t) q) + Rpower (base delay (S n)) q).
      assert (STEP : Rpower (base delay (S n)) q <= F (INR (S n)) - F (INR n)); [|lra].
      pose proof (pos_INR n) as PN.
      destruct (MVT_gen F (INR n) (INR (S n)) (fun s => Rpower (1 + s / delay) (- q))) as [c [[C1 C2] E]].
      + intros x [X1 X2]. rewrite S_INR in X2. rewrite Rmin_left in X1 by (rewrite S_INR; lra). apply power_derive; lra.
      + intros x [X1 X2]. rewrite Rmin_left in X1 by (rewrite S_INR; lra).
        apply derivable_continuous_pt. exists (Rpower (1 + x / delay) (- q)). apply is_derive_Reals. apply power_derive; lra.
      + rewrite Rmin_left in C1 by (rewrite S_INR; lra). rewrite Rmax_right in C2 by (rewrite S_INR; lra).
        rewrite E, BP. replace (INR (S n) - INR n) with 1 by (rewrite S_INR; ring). rewrite Rmult_1_r.
        assert (P : 0 < 1 + c / delay). { assert (0 <= c / delay) by (apply Rmult_le_pos; [lra|left; apply Rinv_0_lt_compat; exact D]). lra. }
        assert (L : 1 + c / delay <= 1 + INR (S n) / delay). { apply Rplus_le_compat_l. apply Rmult_le_compat_r; [left; apply Rinv_0_lt_compat; exact D|exact C2]. }
        rewrite !Rpower_Ropp. apply Rinv_le_contravar; [apply Rpower_pos|]. apply Rpower_mono; lra. }
  assert (G : forall n, F (INR n) - F 0 <= delay / (q - 1)).
  { intros n. unfold F. replace (1 + 0 / delay) with 1 by (field; lra). rewrite Rpower_1_l.
    assert (0 < delay / (q - 1)) by (apply Rdiv_lt_0_compat; lra). pose proof (Rpower_pos (1 + INR n / delay) (1 - q)).
    assert (0 < delay / (q - 1) * Rpower (1 + INR n / delay) (1 - q)) by (apply Rmult_lt_0_compat; assumption). lra. }
  intros [|n]; [cbn [sum]; assert (0 < delay / (q - 1)) by (apply Rdiv_lt_0_compat; lra); lra|]. specialize (K n). specialize (G n). lra.
Qed.
(** C85: over the steps, the schedule can carry the parameters any distance exactly for decay <= 1, and its squares
    have a finite sum exactly for decay > 1/2: the Robbins-Monro conditions hold for 1/2 < decay <= 1. *)
Theorem C85_robbins_monro : forall rate delay decay, 0 < rate -> 0 < delay -> 0 <= decay ->
  (decay <= 1 -> unbounded (standard_schedule rate delay decay)) /\
  (1 < decay -> forall n, total (standard_schedule rate delay decay) n <= rate * (1 + delay / (decay - 1))) /\
  (1 / 2 < decay -> forall n, total (fun t => standard_schedule rate delay decay t ^ 2) n <= rate ^ 2 * (1 + delay / (2 * decay - 1))) /\
  (decay <= 1 / 2 -> unbounded (fun t => standard_schedule rate delay decay t ^ 2)).
Proof.
  intros rate delay decay HR HD HP.
  assert (S1 : forall n, total (standard_schedule rate delay decay) n = rate * sum n (fun t => Rpower (base delay t) decay)).
  { intros n. unfold total. rewrite <- sum_scal_l. reflexivity. }
  assert (S2 : forall n, total (fun t => standard_schedule rate delay decay t ^ 2) n = rate ^ 2 * sum n (fun t => Rpower (base delay t) (2 * decay))).
  { intros n. unfold total. rewrite <- sum_scal_l. apply sum_ext. intros t _. unfold standard_schedule. fold (base delay t).
    replace (2 * decay) with (decay + decay) by ring. rewrite Rpower_plus. ring. }
  assert (U : forall c f g, 0 < c -> (forall n, total f n = c * sum n g) -> unbounded g -> unbounded f).
  { intros c f g C E G M. destruct (G (M / c)) as [n N]. exists n. rewrite E. unfold total in N.
    apply Rmult_lt_compat_l with (r := c) in N; [|exact C]. replace (c * (M / c)) with M in N by (field; lra). exact N. }
  refine (conj _ (conj _ (conj _ _))).
  - intros L. apply (U rate _ _ HR S1). apply powers_unbounded; assumption.
  - intros L n. rewrite S1. apply Rmult_le_compat_l; [lra|]. apply powers_bounded; assumption.
  - intros L n. rewrite S2. apply Rmult_le_compat_l; [apply pow2_ge_0|]. apply powers_bounded; lra.
  - intros L. assert (0 < rate ^ 2) by (apply pow_lt; exact HR). apply (U (rate ^ 2) _ _ H S2). apply powers_unbounded; lra.
Qed.
Theorem C85_constant : forall rate t, constant_schedule rate t = rate.
Proof. reflexivity. Qed.

(** ** The step *)
Lemma quadratic_scal n F c v : quadratic n F (fun i => c * v i) = c ^ 2 * quadratic n F v.
Proof. unfold quadratic. rewrite <- sum_scal_l. apply sum_ext. intros i _. rewrite <- sum_scal_l. apply sum_ext. intros. ring. Qed.
Definition right_inverse (n : nat) (F Finv : mat) : Prop := forall i j, (i < n)%nat -> (j < n)%nat -> sum n (fun k => F i k * Finv k j) = delta i j.
Lemma sum_delta_l n (f : nat -> R) i : (i < n)%nat -> sum n (fun j => delta i j * f j) = f i.
Proof. intros H. rewrite <- (sum_delta_r n f i H). apply sum_ext. intros j _. unfold delta. rewrite (Nat.eqb_sym i j). ring. Qed.
Lemma quadratic_inverse n F Finv u : right_inverse n F Finv ->
  let v := fun i => sum n (fun j => Finv i j * u j) in quadratic n F v = dot n v u.
Proof.
  intros H v. unfold quadratic, dot. apply sum_ext. intros i I.
  transitivity (v i * sum n (fun k => F i k * v k)); [rewrite <- sum_scal_l; apply sum_ext; intros; ring|]. f_equal. unfold v.
  rewrite (sum_ext n _ (fun k => sum n (fun j => F i k * Finv k j * u j))) by (intros; rewrite <- sum_scal_l; apply sum_ext; intros; ring).
  rewrite sum_swap. rewrite (sum_ext n _ (fun j => delta i j * u j)); [apply sum_delta_l; exact I|].
  intros j J. rewrite <- (H i j I J), <- sum_scal_r. reflexivity.
Qed.
Definition positive_definite (n : nat) (F : mat) : Prop := forall v, (exists i, (i < n)%nat /\ v i <> 0) -> 0 < quadratic n F v.
(** C85: with curvature F (positive definite: the damped estimate) the update is minus the learning rate of this step
    times the natural gradient, shortened, by the least amount, to squared Fisher norm norm_constraint; it points
    downhill unless the gradient vanishes. *)
Theorem C85_step : forall n lr constraint refresh g st F, 0 < constraint -> 0 < lr (count st) ->
  right_inverse n F (refresh st) -> positive_definite n F ->
  exists v st', kfac_update true n lr constraint refresh g st = Some (v, st') /\ count st' = S (count st) /\
  let nat_grad := fun i => sum n (fun j => refresh st i j * g j) in
  let sq := lr (count st) ^ 2 * dot n nat_grad g in
  quadratic n F v <= constraint /\
  (sq <= constraint -> forall i, v i = - lr (count st) * nat_grad i) /\
  (constraint < sq -> quadratic n F v = constraint /\ forall i, v i = sqrt (constraint / sq) * (- lr (count st) * nat_grad i)) /\
  ((exists i, (i < n)%nat /\ g i <> 0) -> dot n v g < 0).
Proof.
  intros n lr constraint refresh g st F HC HL INV PD. unfold kfac_update. cbn [negb scale_by_learning_rate].
  set (l := lr (count st)) in *. set (Fi := refresh st) in *. eexists. eexists. split; [reflexivity|]. split; [reflexivity|]. cbv zeta.
  set (u := fun i => - l * g i). set (ng := fun i => sum n (fun j => Fi i j * g j)). set (sq := l ^ 2 * dot n ng g).
  assert (V0 : forall i, sum n (fun j => Fi i j * u j) = - l * ng i).
  { intros i. unfold u, ng. rewrite <- sum_scal_l. apply sum_ext. intros. ring. }
  assert (SQ : dot n (fun i => sum n (fun j => Fi i j * u j)) u = sq).
  { unfold dot at 1. rewrite (sum_ext n _ (fun i => l ^ 2 * (ng i * g i))) by (intros; rewrite V0; unfold u; ring). rewrite sum_scal_l. reflexivity. }
  assert (QF : quadratic n F (fun i => sum n (fun j => Fi i j * u j)) = sq) by (rewrite <- SQ; apply quadratic_inverse; exact INV).
  assert (NZ : (exists i, (i < n)%nat /\ g i <> 0) -> 0 < sq).
  { intros (i & I & G). rewrite <- QF. apply PD.
    destruct (Classical_Prop.classic (exists k, (k < n)%nat /\ sum n (fun j => Fi k j * u j) <> 0)) as [E|E]; [exact E|exfalso].
    assert (Z : forall k, (k < n)%nat -> sum n (fun j => Fi k j * u j) = 0). { intros k K. destruct (Req_EM_T (sum n (fun j => Fi k j * u j)) 0) as [e|ne]; [exact e|]. exfalso. apply E. exists k. split; assumption. }
    assert (Y : u i = 0).
    { transitivity (sum n (fun k => F i k * sum n (fun j => Fi k j * u j))).
      - rewrite (sum_ext n (fun k => F i k * _) (fun k => sum n (fun j => F i k * Fi k j * u j))) by (intros; rewrite <- sum_scal_l; apply sum_ext; intros; ring).
        rewrite sum_swap. rewrite (sum_ext n _ (fun j => delta i j * u j)); [symmetry; apply (sum_delta_l n u); exact I|].
        intros j J. rewrite <- (INV i j I J), <- sum_scal_r. reflexivity.
      - apply sum_0. intros k K. rewrite Z by exact K. ring. }
    unfold u in Y. apply Rmult_integral in Y. destruct Y; [lra|contradiction]. }
  assert (SQ0 : 0 <= sq).
  { destruct (Classical_Prop.classic (exists i, (i < n)%nat /\ g i <> 0)) as [E|E]; [left; apply NZ; exact E|].
    right. unfold sq, dot. rewrite sum_0; [ring|]. intros i I. destruct (Req_EM_T (g i) 0) as [-> |ne]; [ring|]. exfalso. apply E. exists i. split; assumption. }
  unfold precondition. rewrite SQ. set (c := norm_coefficient constraint sq).
  assert (CA : sq <= constraint -> c = 1).
  { intros L. unfold c, norm_coefficient. destruct (Req_EM_T sq 0); [reflexivity|]. apply Rmin_left. rewrite <- sqrt_1. apply sqrt_le_1_alt.
    apply Rmult_le_reg_r with sq; [lra|]. unfold Rdiv. rewrite Rmult_assoc, Rinv_l by lra. lra. }
  assert (CB : constraint < sq -> c = sqrt (constraint / sq) /\ c ^ 2 * sq = constraint).
  { intros L. assert (c = sqrt (constraint / sq)).
    { unfold c, norm_coefficient. destruct (Req_EM_T sq 0); [lra|]. apply Rmin_right. rewrite <- sqrt_1. apply sqrt_le_1_alt.
      apply Rmult_le_reg_r with sq; [lra|]. unfold Rdiv. rewrite Rmult_assoc, Rinv_l by lra. lra. }
    split; [assumption|]. rewrite H. cbn [pow]. rewrite Rmult_1_r, sqrt_sqrt; [field; lra|]. left. apply Rdiv_lt_0_compat; lra. }
  assert (CP : 0 < c).
  { destruct (Rle_lt_dec sq constraint) as [L|L]; [rewrite (CA L); lra|]. destruct (CB L) as [-> _]. apply sqrt_lt_R0. apply Rdiv_lt_0_compat; lra. }
  assert (QV : quadratic n F (fun i => c * sum n (fun j => Fi i j * u j)) = c ^ 2 * sq) by (rewrite quadratic_scal, QF; reflexivity).
  refine (conj _ (conj _ (conj _ _))).
  - rewrite QV. destruct (Rle_lt_dec sq constraint) as [L|L]; [rewrite (CA L); lra|]. destruct (CB L) as [_ ->]. lra.
  - intros L i. rewrite (CA L), V0. unfold ng. ring.
  - intros L. destruct (CB L) as [E1 E2]. rewrite QV. split; [exact E2|]. intros i. rewrite V0, <- E1. unfold ng. ring.
  - intros E. specialize (NZ E). unfold dot. rewrite (sum_ext n _ (fun i => - (c * l) * (ng i * g i))) by (intros; rewrite V0; ring).
    rewrite sum_scal_l. fold (dot n ng g). assert (0 < dot n ng g).
    { unfold sq in NZ. apply Rmult_lt_reg_l with (l ^ 2); [apply pow_lt; exact HL|]. lra. }
    assert (0 < c * l * dot n ng g) by (apply Rmult_lt_0_compat; [apply Rmult_lt_0_compat|]; assumption). lra.
Qed.
(** C85: update number k uses the schedule at k, whatever the gradients were; before init it is refused. *)
Fixpoint kfac_run (n : nat) (lr : nat -> R) (constraint : R) (refresh : kfac_state -> mat) (gs : list vec) (st : kfac_state) : option kfac_state :=
  match gs with
  | [] => Some st
  | g :: rest => match kfac_update true n lr constraint refresh g st with Some (_, st') => kfac_run n lr constraint refresh rest st' | None => None end
  end.
Theorem C85_counts : forall n lr constraint refresh gs finv0,
  (exists st, kfac_run n lr constraint refresh gs {| count := 0; pre_count := 0; curvature_inv := finv0 |} = Some st /\ count st = List.length gs /\ pre_count st = List.length gs) /\
  forall g st, kfac_update false n lr constraint refresh g st = None.
Proof.
  intros n lr constraint refresh gs finv0. split; [|reflexivity].
  assert (G : forall gs st, exists st', kfac_run n lr constraint refresh gs st = Some st' /\ count st' = (count st + List.length gs)%nat /\ pre_count st' = (pre_count st + List.length gs)%nat).
  { induction gs0 as [|g rest IH]; intros st; cbn [kfac_run List.length]; [exists st; refine (conj eq_refl (conj _ _)); lia|].
    unfold kfac_update. cbn [negb scale_by_learning_rate]. destruct (IH {| count := S (count st); pre_count := S (pre_count st); curvature_inv := refresh st |}) as [st' (E & A & B)].
    exists st'. rewrite E. cbn [count pre_count] in A, B. refine (conj eq_refl (conj _ _)); lia. }
  exact (G gs {| count := 0; pre_count := 0; curvature_inv := finv0 |}).
Qed.
Example C85_step_example : let F := fun i j => 2 * delta i j in let st := {| count := 0; pre_count := 0; curvature_inv := F |} in
  right_inverse 2 F (fun i j => / 2 * delta i j) /\ positive_definite 2 F /\ 0 < standard_schedule (5/100) 2000 1 (count st).
Proof.
  cbv zeta. refine (conj _ (conj _ _)).
  - intros i j I J. destruct i as [|[|]], j as [|[|]]; try lia; unfold delta; cbn; lra.
  - intros v (i & I & N). unfold quadratic, delta. cbn. destruct i as [|[|]]; [| |lia].
    + assert (0 < v 0%nat * v 0%nat) by (apply Rsqr_pos_lt; exact N). pose proof (Rle_0_sqr (v 1%nat)). unfold Rsqr in *. lra.
    + assert (0 < v 1%nat * v 1%nat) by (apply Rsqr_pos_lt; exact N). pose proof (Rle_0_sqr (v 0%nat)). unfold Rsqr in *. lra.
  - apply C85_schedule; lra.
Qed.
