(** C41 (consequences), C43: standard SR, eigenmodes, descent, histories, pruning, norm limit. *)
From Coq Require Import Reals List Arith Bool Lra Lia FunctionalExtensionality.
From Verif Require Import Lin Shape Sr_Model Sr_Spec Sr_Lemmas Sr_Kernel Sr_Props.
Import ListNotations.
Open Scope R_scope.
Local Notation "a =? b" := (Nat.eqb a b).

(** ** Damped systems have one solution *)
Lemma fisher_cov cfg b a c : nonempty b -> active b = None -> fisher b (rescale cfg b) a c = cov (total_rows b) (flat (rows b) (score cfg b)) a c.
Proof. intros NE A. rewrite cov_fisher by auto. unfold at_active. rewrite A. reflexivity. Qed.
Lemma posdef_ext n f f' : (forall i j, (i < n)%nat -> (j < n)%nat -> f i j = f' i j) -> posdef n f -> posdef n f'.
Proof.
  intros E [S P]. split.
  - intros i j I J. rewrite <- !E by auto. apply S; auto.
  - intros v V. specialize (P v V). unfold quad in *. rewrite (sum_ext n _ (fun i => v i * mv n f v i)); auto. intros i I. f_equal. apply sum_ext. intros j J. rewrite E by auto. reflexivity.
Qed.
Lemma fisher_posdef cfg b m lam : nonempty b -> active b = None -> (forall a, (a < n_params b)%nat -> 0 < m a) -> 0 < lam -> posdef (n_params b) (damped (fisher b (rescale cfg b)) m lam).
Proof.
  intros NE A M L. apply posdef_ext with (f := damped (cov (total_rows b) (flat (rows b) (score cfg b))) m lam); [|apply damped_posdef; auto].
  intros. unfold damped. rewrite <- fisher_cov by auto. reflexivity.
Qed.
Lemma solves_unique n f x y rhs : posdef n f -> solves n f x rhs -> solves n f y rhs -> forall i, (i < n)%nat -> x i = y i.
Proof. intros PD X Y. apply (posdef_unique n f x y PD). intros i I. change (mv n f x i = mv n f y i). unfold mv. rewrite X, Y by auto. reflexivity. Qed.

(** ** gamma *)
Theorem C41_gamma_range : forall cfg b st, usable cfg -> 
  Rmin 1 (1 / Rmax (lambda cfg b st) (eps cfg)) <= gamma cfg b st <= Rmax 1 (1 / Rmax (lambda cfg b st) (eps cfg)) /\ 0 < gamma cfg b st.
Proof.
  intros cfg b st U. unfold gamma, get_gamma, limit_gamma. set (v := match robust cfg with Standard => _ | _ => _ end).
  set (b2 := 1 / Rmax (lambda cfg b st) (eps cfg)). assert (B : 0 < b2).
  { unfold b2. apply Rdiv_lt_0_compat; [lra|]. destruct U as [E _]. eapply Rlt_le_trans; [exact E|apply Rmax_r]. }
  assert (0 < Rmin 1 b2) by (unfold Rmin; destruct (Rle_dec 1 b2); lra). assert (Rmin 1 b2 <= Rmax 1 b2) by (unfold Rmin, Rmax; destruct (Rle_dec 1 b2); lra).
  set (lo := Rmin 1 b2) in *. set (hi := Rmax 1 b2) in *. unfold Rmin, Rmax. destruct (Rle_dec v lo); destruct (Rle_dec _ hi); lra.
Qed.
Lemma gamma_standard cfg b st : robust cfg = Standard -> eps cfg <= lambda cfg b st -> gamma cfg b st = / lambda cfg b st.
Proof.
  intros R E. unfold gamma, get_gamma, limit_gamma. rewrite R. rewrite !(Rmax_left (lambda cfg b st) (eps cfg)) by (apply Rle_ge in E; lra). unfold Rdiv. rewrite Rmult_1_l. set (t := / lambda cfg b st). unfold Rmin, Rmax.
  destruct (Rle_dec 1 t); destruct (Rle_dec t _); destruct (Rle_dec _ _); lra.
Qed.

(** ** Standard SR: (O^T O + lambda) delta = g, and delta is the only solution *)
Theorem C41_standard : forall cfg b g st, usable cfg -> nonempty b -> nonneg_var st -> active b = None ->
  robust cfg = Standard -> spring cfg = None -> march cfg = None -> eps cfg <= lambda cfg b st ->
  forall x, (forall a, (a < n_params b)%nat -> sum (n_params b) (fun c => (fisher b (rescale cfg b) a c + lambda cfg b st * delta a c) * x c) = g a) <->
            (forall a, (a < n_params b)%nat -> x a = fst (update cfg b g st) a).
Proof.
  intros cfg b g st U NE V A R SP M E.
  pose proof (lambda_pos cfg b U st) as L. pose proof (C41_robust cfg b g st U NE V A) as S. rewrite gamma_standard in S by auto.
  assert (ME : metric cfg b st = fun _ => 1) by (unfold metric; rewrite M; reflexivity). rewrite ME in S.
  assert (MO : momentum cfg st = fun _ => 0) by (unfold momentum; rewrite SP; reflexivity). rewrite MO in S.
  destruct S as [x0 [y [y' [X [Y [Y' D]]]]]]. set (d := fst (update cfg b g st)) in *.
  assert (D0 : forall a, (a < n_params b)%nat -> d a = x0 a) by (intros a I; rewrite (D a I); field; lra).
  pose proof (fisher_posdef cfg b (fun _ => 1) _ NE A (fun _ _ => Rlt_0_1) L) as PD.
  assert (EQ : forall x a, sum (n_params b) (fun c => (fisher b (rescale cfg b) a c + lambda cfg b st * delta a c) * x c) = mv (n_params b) (damped (fisher b (rescale cfg b)) (fun _ => 1) (lambda cfg b st)) x a).
  { intros. unfold mv, damped. apply sum_ext. intros. ring. }
  assert (XG : forall a, (a < n_params b)%nat -> mv (n_params b) (damped (fisher b (rescale cfg b)) (fun _ => 1) (lambda cfg b st)) x0 a = g a).
  { intros a I. unfold mv. rewrite (X a I). ring. }
  intros x. split.
  - intros H a I. rewrite D0 by auto. apply (posdef_unique _ _ x x0 PD); auto. intros i J. rewrite <- EQ, H, XG by auto. reflexivity.
  - intros H a I. rewrite EQ. rewrite <- (XG a I). apply sum_ext. intros c C. rewrite H, D0 by auto. reflexivity.
Qed.

(** ** Eigenmodes: G_gamma(h) = (h + gamma lambda^2) / (h + lambda)^2, momentum damped by
    lambda / (k + lambda) *)
Theorem C41_modes : forall cfg b g st h k, usable cfg -> nonempty b -> nonneg_var st -> active b = None -> march cfg = None -> 0 <= h -> 0 <= k ->
  (forall a, (a < n_params b)%nat -> sum (n_params b) (fun c => fisher b (rescale cfg b) a c * g c) = h * g a) ->
  (forall a, (a < n_params b)%nat -> sum (n_params b) (fun c => fisher b (rescale cfg b) a c * momentum cfg st c) = k * momentum cfg st a) ->
  let lam := lambda cfg b st in let gam := gamma cfg b st in
  forall a, (a < n_params b)%nat -> fst (update cfg b g st) a = (h + gam * (lam * lam)) / ((h + lam) * (h + lam)) * g a + lam / (k + lam) * momentum cfg st a.
Proof.
  intros cfg b g st h k U NE V A M H0 K0 HG HP lam gam a I.
  assert (L : 0 < lam) by apply (lambda_pos cfg b U st).
  destruct (C41_robust cfg b g st U NE V A) as [x [y [y' [X [Y [Y' D]]]]]]. rewrite (D a I). clear D. change (lambda cfg b st) with lam in X, Y, Y' |- *. change (gamma cfg b st) with gam.
  assert (ME : metric cfg b st = fun _ => 1) by (unfold metric; rewrite M; reflexivity). rewrite ME in *.
  pose proof (fisher_posdef cfg b (fun _ => 1) lam NE A (fun _ _ => Rlt_0_1) L) as PD. set (p := momentum cfg st) in *. set (n := n_params b) in *. set (F := fisher b (rescale cfg b)) in *.
  assert (EV : forall (v : vec) e c i, (i < n)%nat -> (forall a, (a < n)%nat -> sum n (fun c => F a c * v c) = e * v a) -> mv n (damped F (fun _ => 1) lam) (fun j => c * v j) i = (e + lam) * c * v i).
  { intros v e c i Hi Hv. unfold damped. rewrite mv_diag by auto. rewrite mv_scal. unfold mv. rewrite Hv by auto. ring. }
  assert (YE : forall i, (i < n)%nat -> y i = / (h + lam) * g i).
  { apply (posdef_unique n (damped F (fun _ => 1) lam) _ _ PD). intros i Hi. rewrite (EV g h) by auto. unfold mv. rewrite (Y i Hi). field. lra. }
  assert (YE' : forall i, (i < n)%nat -> y' i = / (h + lam) * / (h + lam) * g i).
  { apply (posdef_unique n (damped F (fun _ => 1) lam) _ _ PD). intros i Hi. rewrite (EV g h) by auto. unfold mv. rewrite (Y' i Hi), YE by auto. field. lra. }
  assert (XE : forall i, (i < n)%nat -> x i = / (h + lam) * g i + lam / (k + lam) * p i).
  { apply (posdef_unique n (damped F (fun _ => 1) lam) _ _ PD). intros i Hi. rewrite mv_plus, (EV g h), (EV p k) by auto. unfold mv. rewrite (X i Hi). field. lra. }
  rewrite XE, YE' by auto. field. lra.
Qed.
(** ** Descent: without momentum the update has a positive overlap with the gradient *)
Theorem C41_descent : forall cfg b g st, usable cfg -> nonempty b -> nonneg_var st -> active b = None -> spring cfg = None ->
  (exists a, (a < n_params b)%nat /\ g a <> 0) -> 0 < sum (n_params b) (fun a => g a * fst (update cfg b g st) a).
Proof.
  intros cfg b g st U NE V A SP [a0 [A0 G0]].
  pose proof (lambda_pos cfg b U st) as L. destruct (C41_gamma_range cfg b st U) as [_ GP].
  destruct (C41_robust cfg b g st U NE V A) as [x [y [y' [X [Y [Y' D]]]]]]. set (d := fst (update cfg b g st)) in *. set (lam := lambda cfg b st) in *. set (gam := gamma cfg b st) in *.
  assert (MP : forall a, 0 < metric cfg b st a) by (intros a; rewrite metric_eq by auto; apply Rinv_0_lt_compat, scaling_pos; auto).
  pose proof (fisher_posdef cfg b (metric cfg b st) lam NE A (fun a _ => MP a) L) as PD. set (m := metric cfg b st) in *. set (n := n_params b) in *. set (F := fisher b (rescale cfg b)) in *. set (B := damped F m lam) in *.
  assert (MO : forall a, momentum cfg st a = 0) by (intros; unfold momentum; rewrite SP; reflexivity).
  assert (XY : forall i, (i < n)%nat -> x i = y i).
  { apply (posdef_unique n B _ _ PD). intros i Hi. unfold mv. rewrite (X i Hi), (Y i Hi), MO. ring. }
  rewrite (sum_ext n _ (fun a => g a * y a - lam * (1 - gam * lam) * (g a * y' a))) by (intros a Ha; rewrite (D a Ha), XY by auto; ring).
  rewrite sum_minus, sum_scal_l.
  assert (E1 : sum n (fun a => g a * y a) = quad n F y + lam * sum n (fun a => m a * (y a * y a))).
  { unfold quad. rewrite <- sum_scal_l, <- sum_plus. apply sum_ext. intros a Ha. rewrite <- (Y a Ha). assert (DM : mv n B y a = mv n F y a + lam * (m a * y a)) by (unfold B, damped; apply mv_diag; auto). unfold mv in DM at 1. rewrite DM. ring. }
  assert (E2 : sum n (fun a => g a * y' a) = sum n (fun a => m a * (y a * y a))).
  { rewrite (sum_ext n _ (fun a => y' a * mv n B y a)) by (intros a Ha; change (mv n B y a) with (sum n (fun j => B a j * y j)); rewrite (Y a Ha); ring).
    rewrite (quad_sym n B y' y (proj1 PD)). apply sum_ext. intros a Ha. change (mv n B y' a) with (sum n (fun j => B a j * y' j)). rewrite (Y' a Ha). ring. }
  rewrite E1, E2.
  assert (Q : 0 <= quad n F y).
  { unfold quad. rewrite (sum_ext n _ (fun i => y i * mv n (cov (total_rows b) (flat (rows b) (score cfg b))) y i)).
    - rewrite (sum_ext n _ (fun i => sum (total_rows b) (fun r => mv n (flat (rows b) (score cfg b)) y r * (flat (rows b) (score cfg b) r i * y i)))).
      + rewrite sum_swap. apply sum_nonneg. intros r _. rewrite sum_scal_l. change (sum n (fun i => flat (rows b) (score cfg b) r i * y i)) with (mv n (flat (rows b) (score cfg b)) y r). nra.
      + intros i _. rewrite cov_mv. unfold tmv. rewrite <- sum_scal_l. apply sum_ext. intros. ring.
    - intros i Hi. f_equal. apply sum_ext. intros j Hj. unfold F. rewrite fisher_cov by auto. reflexivity. }
  assert (YN : exists i, (i < n)%nat /\ y i <> 0).
  { destruct (Req_dec (sum n (fun a => y a * y a)) 0) as [Z|Z].
    - exfalso. apply G0. rewrite <- (Y a0 A0). apply sum_0. intros j J. rewrite (sum_sq_zero n y Z j J). ring.
    - clear -Z. induction n as [|n IH]; [cbn in Z; lra|]. destruct (Req_dec (y n) 0) as [E|E]; [|exists n; split; [lia|auto]].
      destruct IH as [i [I N]]; [cbn [sum] in Z; rewrite E, Rmult_0_l, Rplus_0_r in Z; exact Z|]. exists i. split; [lia|auto]. }
  assert (W : 0 < sum n (fun a => m a * (y a * y a))).
  { destruct YN as [i [I N]]. assert (NN : forall q, (q < n)%nat -> 0 <= m q * (y q * y q)) by (intros q _; pose proof (MP q); apply Rmult_le_pos; [lra|nra]).
    assert (0 <= sum n (fun a => m a * (y a * y a))) by (apply sum_nonneg; auto). destruct (Req_dec (sum n (fun a => m a * (y a * y a))) 0) as [Z|]; [|lra].
    exfalso. pose proof (sum_pos_zero n (fun a => m a * (y a * y a)) NN Z i I) as T. cbn in T. apply Rmult_integral in T as [T|T]; [pose proof (MP i); lra|]. apply N. apply Rmult_integral in T as [T|T]; exact T. }
  set (t := sum n (fun a => m a * (y a * y a))) in *. replace (quad n F y + lam * t - lam * (1 - gam * lam) * t) with (quad n F y + gam * (lam * lam) * t) by ring.
  assert (0 < gam * (lam * lam) * t) by (apply Rmult_lt_0_compat; [apply Rmult_lt_0_compat; [auto|nra]|auto]). lra.
Qed.
(** ** Histories *)
Fixpoint run (cfg : settings) (hist : list (batch * vec)) (st : state) : list (state * vec) :=
  match hist with
  | [] => []
  | (b, g) :: hist' => let r := update cfg b g st in (st, fst r) :: run cfg hist' (snd r)
  end.
Lemma update_nonneg cfg b g st : usable cfg -> nonneg_var st -> nonneg_var (snd (update cfg b g st)).
Proof.
  intros U V a. pose proof (current_nonneg cfg b U st V a) as C. unfold update. cbn [snd acc_var]. set (d := set_idx _ _ _). clearbody d.
  destruct (march cfg) as [beta|] eqn:M; [|exact C]. destruct (var_mode cfg); [exact C|]. pose proof (proj1 (proj2 (proj2 U)) beta (counter st) M) as B.
  pose proof (Rle_0_sqr (d a - prev_delta st a)) as Q. unfold Rsqr in Q. apply Rplus_le_le_0_compat; apply Rmult_le_pos; lra.
Qed.
Lemma run_spec cfg : usable cfg -> forall hist st, nonneg_var st -> forall k st' d, nth_error (run cfg hist st) k = Some (st', d) ->
  nonneg_var st' /\ counter st' = (counter st + k)%nat /\ (k = 0%nat /\ st' = st \/ exists st'' d', (k > 0)%nat /\ nth_error (run cfg hist st) (k - 1) = Some (st'', d') /\ prev_delta st' = d') /\
  exists b g, nth_error hist k = Some (b, g) /\ d = fst (update cfg b g st').
Proof.
  intros U. induction hist as [|[b g] hist IH]; intros st V k st' d H; [destruct k; discriminate|].
  cbn [run] in H. destruct k as [|k]; cbn [nth_error] in H.
  - injection H as <- <-. split; [auto|]. split; [lia|]. split; [left; auto|]. exists b, g. split; reflexivity.
  - destruct (IH _ (update_nonneg cfg b g st U V) k st' d H) as [V' [C [P [b' [g' [N E]]]]]]. split; [auto|]. split; [rewrite C; cbn; lia|]. split.
    + right. destruct P as [[-> ->]|[st'' [d' [K [Q R]]]]].
      * exists st, (fst (update cfg b g st)). split; [lia|]. split; reflexivity.
      * exists st'', d'. split; [lia|]. split; auto. replace (S k - 1)%nat with (S (k - 1)) by lia. exact Q.
    + exists b', g'. split; auto.
Qed.
(** Every update of every optimisation started from [init]: the k-th one solves the documented
    equations, with the momentum mu(k) times the (k-1)-th update. *)
Theorem C41_history : forall cfg hist k st d, usable cfg -> Forall (fun q => nonempty (fst q) /\ active (fst q) = None) hist ->
  nth_error (run cfg hist init) k = Some (st, d) ->
  exists b g, nth_error hist k = Some (b, g) /\ counter st = k /\
    (forall a, prev_delta st a = match k with O => 0 | S j => match nth_error (run cfg hist init) j with Some (_, d') => d' a | None => 0 end end) /\
    robust_solution (n_params b) (fisher b (rescale cfg b)) (metric cfg b st) (lambda cfg b st) (gamma cfg b st) g
      (fun a => match spring cfg with Some mu => mu k * prev_delta st a | None => 0 end) d.
Proof.
  intros cfg hist k st d U F H. assert (V0 : nonneg_var init) by (intros a; cbn; lra).
  destruct (run_spec cfg U hist init V0 k st d H) as [V [C [P [b [g [N E]]]]]]. exists b, g. split; auto. cbn in C. split; auto. split.
  - intros a. destruct P as [[-> ->]|[st'' [d' [K [Q R]]]]]; [reflexivity|]. destruct k as [|j]; [lia|]. replace (S j - 1)%nat with j in Q by lia. rewrite Q, R. reflexivity.
  - rewrite Forall_forall in F. destruct (F _ (nth_error_In _ _ N)) as [NE A]. cbn in NE, A. pose proof (C41_robust cfg b g st U NE V A) as S. rewrite E.
    replace (fun a => match spring cfg with Some mu => mu k * prev_delta st a | None => 0 end) with (momentum cfg st); [exact S|].
    apply functional_extensionality. intros a. unfold momentum. rewrite C. destruct (spring cfg); reflexivity.
Qed.

(** ** Norm constraint *)
Lemma norm_scal n c u : 0 <= c -> norm n (fun i => c * u i) = c * norm n u.
Proof.
  intros C. unfold norm, dot. rewrite (sum_ext n _ (fun i => c * c * (u i * u i))) by (intros; ring). rewrite sum_scal_l. rewrite sqrt_mult_alt by nra. rewrite sqrt_square by auto. reflexivity.
Qed.
Theorem C43_constrained : forall n lr max_norm eps u, 0 <= lr -> 0 <= max_norm -> 0 < eps ->
  exists k, 0 <= k <= lr /\ (forall i, constrain n lr (Some max_norm) eps u i = k * u i) /\ norm n (constrain n lr (Some max_norm) eps u) <= max_norm /\
    norm n (constrain n lr (Some max_norm) eps u) <= lr * norm n u /\ (lr * (norm n u + eps) <= max_norm -> k = lr).
Proof.
  intros n lr c eps u L C E. set (k := Rmin lr (c / (norm n u + eps))). pose proof (norm_nonneg n u) as N.
  assert (Q : 0 <= c / (norm n u + eps)) by (apply Rmult_le_pos; [auto|left; apply Rinv_0_lt_compat; lra]).
  assert (K : 0 <= k) by (unfold k, Rmin; destruct (Rle_dec lr _); auto). exists k. split; [split; [auto|apply Rmin_l]|]. split; [reflexivity|].
  change (constrain n lr (Some c) eps u) with (fun i => k * u i). rewrite norm_scal by auto. split; [|split].
  - apply Rle_trans with (c / (norm n u + eps) * norm n u); [apply Rmult_le_compat_r; [auto|apply Rmin_r]|].
    apply Rle_trans with (c / (norm n u + eps) * (norm n u + eps)); [apply Rmult_le_compat_l; [auto|lra]|]. right. field. lra.
  - apply Rmult_le_compat_r; [auto|apply Rmin_l].
  - intros B. unfold k. apply Rmin_left. apply Rmult_le_reg_r with (norm n u + eps); [lra|]. unfold Rdiv. rewrite Rmult_assoc, Rinv_l by lra. lra.
Qed.
(** robust_sr: the parameter change points against the preconditioned gradient and obeys the
    norm limit; with 'fixed' its norm is lr |u| / (|u| + eps) unless |u| + eps < lr / 1e8. *)
Theorem C43_step : forall n lr rule eps count u, (forall t, 0 <= lr t) -> 0 < eps -> (forall c t, rule = Limit c -> 0 <= c t) ->
  exists k, 0 <= k /\ (forall i, robust_sr_step n lr rule eps count u i = - (k * u i)) /\
    match rule with
    | Unlimited => k = lr count
    | Limit c => k <= lr count /\ norm n (robust_sr_step n lr rule eps count u) <= c count
    | Fixed => norm n (robust_sr_step n lr rule eps count u) <= lr count /\
               (lr count / large_rate <= norm n u + eps -> norm n (robust_sr_step n lr rule eps count u) = lr count * (norm n u / (norm n u + eps)))
    end.
Proof.
  intros n lr rule eps count u L E C.
  assert (NO : forall v, norm n (fun i => -1 * v i) = norm n v) by (intros v; unfold norm, dot; f_equal; apply sum_ext; intros; ring).
  destruct rule as [|c|]; unfold robust_sr_step.
  - exists (lr count). split; [auto|]. split; [intros; unfold constrain, constrained_factor; ring|reflexivity].
  - destruct (C43_constrained n (lr count) (c count) eps u (L _) (C c count eq_refl) E) as [k [[K0 K1] [H [N _]]]]. exists k. split; [auto|]. split; [intros; rewrite H; ring|]. split; [auto|]. rewrite NO. exact N.
  - assert (LR : 0 <= large_rate) by (unfold large_rate; lra).
    destruct (C43_constrained n large_rate (lr count) eps u LR (L _) E) as [k [[K0 K1] [H [N _]]]]. exists k. split; [auto|]. split; [intros; rewrite H; ring|]. rewrite NO. split; [exact N|].
    intros B. pose proof (norm_nonneg n u). assert (KE : constrained_factor n large_rate (Some (lr count)) eps u = lr count / (norm n u + eps)).
    { unfold constrained_factor. apply Rmin_right. apply Rmult_le_reg_r with (norm n u + eps); [lra|]. unfold Rdiv. rewrite Rmult_assoc, Rinv_l by lra.
      apply (Rmult_le_compat_r large_rate) in B; auto. unfold Rdiv in B. rewrite Rmult_assoc, Rinv_l in B by (unfold large_rate; lra). lra. }
    unfold constrain. rewrite KE. rewrite norm_scal; [field; lra|]. apply Rmult_le_pos; [auto|left; apply Rinv_0_lt_compat; lra].
Qed.
(** |(3,4)| = 5: limit 1 gives a factor 1/(5 + 1) with eps = 1 *)
Example C43_demo : constrain 2 (1 / 2) (Some 1) 1 (fun i => if i =? 0 then 3 else 4) 1%nat = 2 / 3.
Proof.
  unfold constrain, constrained_factor, norm, dot. cbn. replace (0 + 3 * 3 + 4 * 4) with (5 * 5) by ring. rewrite sqrt_square by lra. rewrite Rmin_right by lra. field.
Qed.
