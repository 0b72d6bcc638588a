(** C64: the condition-number cap of the SR optimizer (max_cond_num). *)
From Coq Require Import Reals List Arith Bool Lia Lra.
From Verif Require Import Lin Sr_Model.
Open Scope R_scope.

(** the quadratic form of a matrix, and "x.Gx <= b |x|^2 for all x" *)
Definition form (n : nat) (g : mat) (x : vec) : R := dot n x (mv n g x).
Definition below (n : nat) (g : mat) (b : R) : Prop := forall x, form n g x <= b * dot n x x.
Definition psd (n : nat) (g : mat) : Prop := forall x, 0 <= form n g x.
(** the largest and smallest value of the form on unit vectors differ by at most a factor [t] *)
Definition condition_at_most (n : nat) (g : mat) (t : R) : Prop :=
  forall x y, dot n x x = 1 -> dot n y y = 1 -> form n g x <= t * form n g y.
Definition damped (g : mat) (lam : R) : mat := fun i j => g i j + lam * delta i j.

Lemma mv_damped n g lam x i : (i < n)%nat -> mv n (damped g lam) x i = mv n g x i + lam * x i.
Proof.
  intros I. unfold mv, damped. rewrite (sum_ext _ _ (fun j => g i j * x j + lam * (x j * delta j i))).
  - rewrite sum_plus, sum_scal_l, sum_delta_r by exact I. reflexivity.
  - intros j _. replace (delta i j) with (delta j i) by (unfold delta; rewrite Nat.eqb_sym; reflexivity). ring.
Qed.
Lemma form_damped n g lam x : form n (damped g lam) x = form n g x + lam * dot n x x.
Proof.
  unfold form, dot. rewrite (sum_ext _ _ (fun i => x i * mv n g x i + lam * (x i * x i))); [rewrite sum_plus, sum_scal_l; reflexivity|]. intros i I. rewrite mv_damped by exact I. ring.
Qed.
(** If the power iteration's estimate is not below the spectrum, the damping it asks for (or any larger
    one, such as the maximum with the configured damping) makes the condition number at most the target. *)
Theorem C64_cap_partial : forall n g start target lam, psd n g -> 1 < target -> below n g (power_iteration n g start) -> required_damping n g start target <= lam ->
  condition_at_most n (damped g lam) target.
Proof.
  intros n g start target lam P T B L x y X Y. rewrite !form_damped, X, Y. pose proof (B x) as Bx. rewrite X in Bx. pose proof (P y) as Py. unfold required_damping in L.
  set (mu := power_iteration n g start) in *. pose proof (Rmax_l (mu / (target - 1)) 0) as M. assert (K : mu <= lam * (target - 1)) by (apply Rmult_le_reg_r with (/ (target - 1)); [apply Rinv_0_lt_compat; lra|]; rewrite Rmult_assoc, Rinv_r by lra; unfold Rdiv in *; lra). nra.
Qed.
(** In general the damped condition number exceeds the target only by the factor by which the power
    iteration underestimates the spectrum. *)
Theorem C64_cap_ratio : forall n g start target lam b, psd n g -> 1 < target -> 0 < power_iteration n g start -> below n g b -> required_damping n g start target <= lam ->
  condition_at_most n (damped g lam) (1 + b / power_iteration n g start * (target - 1)).
Proof.
  intros n g start target lam b P T M B L x y X Y. rewrite !form_damped, X, Y. pose proof (B x) as Bx. rewrite X in Bx. pose proof (P y) as Py. pose proof (P x) as Px. unfold required_damping in L.
  set (mu := power_iteration n g start) in *. pose proof (Rmax_l (mu / (target - 1)) 0) as Q.
  assert (K : 1 <= lam * ((target - 1) / mu)). { apply Rmult_le_reg_r with (mu / (target - 1)); [apply Rmult_lt_0_compat; [exact M|apply Rinv_0_lt_compat; lra]|]. replace (lam * ((target - 1) / mu) * (mu / (target - 1))) with lam by (field; lra). lra. }
  assert (B0 : 0 <= b) by lra. replace (b / mu * (target - 1)) with (b * ((target - 1) / mu)) by (field; lra). set (q := (target - 1) / mu) in *. assert (Q0 : 0 < q) by (apply Rmult_lt_0_compat; [lra|apply Rinv_0_lt_compat; exact M]).
  assert (b <= b * (lam * q)) by nra. assert (0 <= b * q) by (apply Rmult_le_pos; lra). assert (0 <= b * q * form n g y) by (apply Rmult_le_pos; assumption). nra.
Qed.
(** The damping never exceeds what an upper bound of the spectrum would ask for ("minimum"). *)
Lemma dot_scal n k x : dot n (fun i => x i / k) (fun i => x i / k) = dot n x x / (k * k).
Proof. unfold dot, Rdiv. rewrite <- sum_scal_r. apply sum_ext. intros i _. rewrite Rinv_mult. ring. Qed.
Lemma dot_zero n x y : norm n x = 0 -> dot n (fun i => x i / norm n x) y = 0.
Proof.
  intros Z. assert (D : dot n x x = 0) by (rewrite <- norm_sq, Z; ring). unfold dot in *. apply sum_0. intros i I. assert (X : x i * x i = 0) by (apply (sum_pos_zero n (fun i => x i * x i)); [intros; nra|exact D|exact I]). assert (X0 : x i = 0) by nra. rewrite X0. unfold Rdiv. ring.
Qed.
Lemma normalised n x : norm n x = 0 \/ dot n (fun i => x i / norm n x) (fun i => x i / norm n x) = 1.
Proof. destruct (Req_EM_T (norm n x) 0) as [Z|Z]; [auto|right]. rewrite dot_scal, norm_sq. field. intros D. apply Z. unfold norm. rewrite D. apply sqrt_0. Qed.
Lemma power_shape n g start : exists x, power_iteration n g start = dot n (fun i => x i / norm n x) (mv n g (fun i => x i / norm n x)).
Proof. unfold power_iteration. cbn [Nat.iter]. eexists. reflexivity. Qed.
Theorem C64_not_above : forall n g start target b, 1 < target -> 0 <= b -> below n g b -> required_damping n g start target <= b / (target - 1).
Proof.
  intros n g start target b T B H. unfold required_damping. apply Rmax_lub; [|apply Rmult_le_pos; [exact B|left; apply Rinv_0_lt_compat; lra]]. apply Rmult_le_compat_r; [left; apply Rinv_0_lt_compat; lra|].
  destruct (power_shape n g start) as [x ->]. destruct (normalised n x) as [Z|E]; [rewrite dot_zero by exact Z; exact B|]. pose proof (H (fun i => x i / norm n x)) as K. rewrite E in K. unfold form in K. lra.
Qed.
Theorem C64_nonneg : forall n g start target, 0 <= required_damping n g start target.
Proof. intros. apply Rmax_r. Qed.
(** ** The cap itself does not hold: ten power iterations stay strictly below the largest eigenvalue.
    For the matrix diag(0, 1, 2), every start vector with a component along the middle eigenvector and
    every target, the damped matrix exceeds the target. *)
Definition diag012 : mat := fun i j => delta i j * INR i.
Lemma mv_diag x i : (i < 3)%nat -> mv 3 diag012 x i = INR i * x i.
Proof. intros I. unfold mv, diag012. rewrite (sum_ext _ _ (fun j => INR i * x j * delta j i)); [rewrite sum_delta_r by exact I; reflexivity|]. intros j _. replace (delta i j) with (delta j i) by (unfold delta; rewrite Nat.eqb_sym; reflexivity). ring. Qed.
Lemma form_diag x : form 3 diag012 x = x 1%nat * x 1%nat + 2 * (x 2%nat * x 2%nat).
Proof. unfold form, dot. rewrite (sum_ext _ _ (fun i => x i * (INR i * x i))) by (intros i I; rewrite mv_diag by exact I; reflexivity). unfold sum. cbn [INR]. ring. Qed.
Lemma norm_pos x : x 1%nat <> 0 -> norm 3 x <> 0.
Proof. intros N Z. pose proof (norm_sq 3 x) as E. rewrite Z in E. unfold dot, sum in E. assert (0 < x 1%nat * x 1%nat) by nra. nra. Qed.
Lemma step_1 x : x 1%nat <> 0 -> (mv 3 diag012 x 1%nat) / norm 3 (mv 3 diag012 x) <> 0.
Proof. intros N. assert (M : mv 3 diag012 x 1%nat <> 0) by (rewrite mv_diag by lia; cbn [INR]; lra). pose proof (norm_pos _ M) as P. unfold Rdiv. apply Rmult_integral_contrapositive_currified; [exact M|apply Rinv_neq_0_compat; exact P]. Qed.
Theorem C64_cap_refuted : psd 3 diag012 /\ forall start target, start 1%nat <> 0 -> 1 < target -> ~ condition_at_most 3 (damped diag012 (required_damping 3 diag012 start target)) target.
Proof.
  split; [intros x; rewrite form_diag; nra|]. intros start target S T C.
  assert (MU : power_iteration 3 diag012 start < 2).
  { pose (nrm := fun v : vec => fun i => v i / norm 3 v).
    assert (I : forall k, Nat.iter k (fun v => nrm (mv 3 diag012 v)) (nrm start) 1%nat <> 0).
    { induction k as [|k IH]; [cbn [Nat.iter]; unfold nrm, Rdiv; apply Rmult_integral_contrapositive_currified; [exact S|apply Rinv_neq_0_compat, norm_pos, S]|]. cbn [Nat.iter]. apply step_1. exact IH. }
    pose proof (I 10%nat) as I10. pose proof (I 9%nat) as I9.
    pose (w := mv 3 diag012 (Nat.iter 9 (fun v => nrm (mv 3 diag012 v)) (nrm start))).
    assert (PE : power_iteration 3 diag012 start = form 3 diag012 (nrm w)) by reflexivity.
    assert (I10' : nrm w 1%nat <> 0) by exact I10.
    assert (W : w 1%nat <> 0) by (unfold w; rewrite mv_diag by lia; cbn [INR]; lra).
    rewrite PE. clearbody w. clear PE I I10 I9.
    destruct (normalised 3 w) as [Z|E]; [destruct (norm_pos w W Z)|]. change (dot 3 (nrm w) (nrm w) = 1) in E. rewrite form_diag. unfold dot, sum in E. set (a := nrm w 1%nat) in *. set (b := nrm w 2%nat) in *. set (c := nrm w 0%nat) in *. assert (0 < a * a) by nra. nra. }
  set (lam := required_damping 3 diag012 start target) in *.
  pose (e := fun k i : nat => delta i k). specialize (C (e 2%nat) (e 0%nat)). rewrite !form_damped, !form_diag in C. unfold dot, sum, e, delta in C. cbn [Nat.eqb] in C. specialize (C ltac:(ring) ltac:(ring)).
  assert (L : lam * (target - 1) < 2).
  { unfold lam, required_damping. apply Rmax_case_strong; intros _; [|lra]. unfold Rdiv. rewrite Rmult_assoc, Rinv_l by lra. lra. }
  nra.
Qed.
(** the hypotheses of [C64_cap_partial] are met, e.g. by the identity *)
Example C64_nonvacuous : exists n g start, psd n g /\ below n g (power_iteration n g start) /\ 0 < power_iteration n g start.
Proof.
  exists 1%nat, delta, (fun _ => 1). assert (F : forall x, form 1 delta x = x 0%nat * x 0%nat) by (intros x; unfold form, dot, mv, sum, delta; cbn; ring).
  assert (N : forall x, x 0%nat = 1 -> norm 1 x = 1) by (intros x X; unfold norm, dot, sum; rewrite X; replace (0 + 1 * 1) with 1 by ring; apply sqrt_1).
  assert (M : forall x, x 0%nat = 1 -> mv 1 delta x 0%nat = 1) by (intros x X; unfold mv, sum, delta; cbn; rewrite X; ring).
  assert (I : forall k, Nat.iter k (fun v i => mv 1 delta v i / norm 1 (mv 1 delta v)) (fun i => 1 / norm 1 (fun _ => 1)) 0%nat = 1).
  { induction k as [|k IH]; [change (1 / norm 1 (fun _ => 1) = 1); rewrite N by reflexivity; field|]. set (v := Nat.iter k _ _) in *. change (mv 1 delta v 0%nat / norm 1 (mv 1 delta v) = 1). pose proof (M _ IH) as Q. rewrite (N _ Q), Q. field. }
  assert (P : power_iteration 1 delta (fun _ => 1) = 1). { unfold power_iteration. pose proof (I 10%nat) as Q. cbv beta in *. set (v := Nat.iter 10 _ _) in *. change (form 1 delta v = 1). rewrite F, Q. ring. }
  rewrite P. split; [intros x; rewrite F; nra|]. split; [intros x; rewrite F; unfold dot, sum; lra|lra].
Qed.
