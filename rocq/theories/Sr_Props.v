(** C41, C42, C43: theorems about the stochastic-reconfiguration update. *)
From Coq Require Import Reals List Arith Bool Lra Lia FunctionalExtensionality.
From Verif Require Import Lin Shape Sr_Model Sr_Spec Sr_Lemmas Sr_Kernel.
Import ListNotations.
Open Scope R_scope.
Local Notation "a =? b" := (Nat.eqb a b).

(** ** C42 *)
Theorem C42_gram : forall devices rows params score scale num_chunks r q,
  (1 <= devices)%nat -> (forall j, (j < params)%nat -> 0 <= scale j) ->
  match num_chunks with Some k => (1 <= k)%nat | None => True end ->
  calc_gram devices rows params score scale num_chunks r q =
  sum params (fun j => score (r / rows)%nat (r mod rows)%nat j * scale j * score (q / rows)%nat (q mod rows)%nat j).
Proof. intros. rewrite calc_gram_eq by auto. reflexivity. Qed.
(** 10 columns in 4 chunks of size 3: the last chunk starts at 7 and masks two columns *)
Example C42_demo : forall score, gram_chunked 2 3 10 score (fun _ => 1) 4%nat 4%nat 1%nat = sum 10 (fun j => score 1%nat 1%nat j * 1 * score 0%nat 1%nat j).
Proof. intros. apply (C42_gram 2 3 10 score (fun _ => 1) (Some 4%nat) 4%nat 1%nat); [lia|intros; lra|lia]. Qed.

(** ** The pieces of the update *)
Section Update.
Variable cfg : settings.
Variable b : batch.
Hypothesis U : usable cfg.
Hypothesis NE : nonempty b.
Let O := flat (rows b) (score cfg b).
Lemma rows_pos : (1 <= rows b)%nat.
Proof. destruct NE. unfold rows. destruct (cplx b); lia. Qed.
Lemma n_batch_pos : 0 < INR (n_batch b).
Proof. destruct NE. apply lt_0_INR. unfold n_batch. nia. Qed.
Lemma samples_eq : samples b = INR (n_batch b).
Proof. unfold samples, n_batch. rewrite Nat.mul_comm. reflexivity. Qed.
Lemma flat_at d l j : (l < rows b)%nat -> flat (rows b) (score cfg b) (d * rows b + l)%nat j = score cfg b d l j.
Proof.
  intros H. unfold flat. pose proof rows_pos. rewrite Nat.div_add_l by lia. rewrite (Nat.div_small l) by auto. rewrite Nat.add_0_r.
  rewrite Nat.add_comm, Nat.mod_add by lia. rewrite Nat.mod_small by auto. reflexivity.
Qed.
Lemma sum_rows (f : nat -> R) : sum (total_rows b) f = sum (devices b) (fun d => sum (rows b) (fun l => f (d * rows b + l)%nat)).
Proof. apply sum_prod. Qed.
Lemma mean_eq x j : mean_score cfg b x j = over_samples b (fun d i => rescale cfg b d i * sel b x d i j) / INR (n_batch b).
Proof.
  unfold mean_score, over_samples, n_batch. destruct NE. rewrite mult_INR. unfold Rdiv. rewrite sum_scal_r. field.
  split; apply not_0_INR; lia.
Qed.
Lemma centred_sum x j : sum (devices b) (fun d => sum (n_local b) (fun i => centred cfg b x d i j)) = 0.
Proof.
  unfold centred, Rdiv. rewrite (sum_ext (devices b) _ (fun d => sum (n_local b) (fun i => rescale cfg b d i * sel b x d i j - mean_score cfg b x j) * / sqrt (INR (n_batch b)))) by (intros; rewrite sum_scal_r; reflexivity).
  rewrite sum_scal_r. rewrite (sum_ext (devices b) _ (fun d => sum (n_local b) (fun i => rescale cfg b d i * sel b x d i j) - INR (n_local b) * mean_score cfg b x j)).
  - rewrite sum_minus. replace (sum (devices b) (fun _ => INR (n_local b) * mean_score cfg b x j)) with (INR (n_batch b) * mean_score cfg b x j).
    + rewrite mean_eq. pose proof n_batch_pos. unfold over_samples. field. split; [apply Rgt_not_eq, sqrt_lt_R0; auto|lra].
    + unfold n_batch. rewrite mult_INR. replace (INR (n_local b) * INR (devices b) * mean_score cfg b x j) with (INR (devices b) * (INR (n_local b) * mean_score cfg b x j)) by ring. generalize (INR (n_local b) * mean_score cfg b x j). intros c. clear. induction (devices b) as [|k IH]; [cbn; lra|]. rewrite S_INR. cbn. rewrite <- IH. lra.
  - intros d _. rewrite sum_minus. f_equal. generalize (mean_score cfg b x j). intros c. clear. induction (n_local b) as [|k IH]; [cbn; lra|]. rewrite S_INR. cbn. rewrite IH. lra.
Qed.
Lemma null_rank_eq : (total_rows b / n_batch b = if cplx b then 2 else 1)%nat.
Proof.
  destruct NE. unfold total_rows, n_batch, rows. destruct (cplx b).
  - replace (devices b * (n_local b + n_local b))%nat with (2 * (n_local b * devices b))%nat by ring. apply Nat.div_mul. nia.
  - replace (devices b * n_local b)%nat with (1 * (n_local b * devices b))%nat by ring. apply Nat.div_mul. nia.
Qed.
Lemma local_eq : (n_batch b / devices b = n_local b)%nat.
Proof. destruct NE. unfold n_batch. apply Nat.div_mul. lia. Qed.
Lemma basis_value r d l : (r < total_rows b / n_batch b)%nat -> (l < rows b)%nat ->
  basis_row (total_rows b) (n_batch b) (devices b) r (d * rows b + l)%nat = if cplx b then (if (l <? n_local b)%nat then if r =? 0 then 1 else 0 else if r =? 0 then 0 else 1) else 1.
Proof.
  intros R L. destruct NE. unfold basis_row. rewrite null_rank_eq, local_eq in *. unfold rows in *. destruct (cplx b).
  - replace ((d * (n_local b + n_local b) + l) / n_local b)%nat with (2 * d + l / n_local b)%nat.
    2: { replace (d * (n_local b + n_local b) + l)%nat with ((2 * d) * n_local b + l)%nat by ring. rewrite Nat.div_add_l by lia. reflexivity. }
    destruct (Nat.ltb_spec l (n_local b)) as [A|A].
    + rewrite Nat.div_small by auto. rewrite Nat.add_0_r. rewrite Nat.mul_comm, Nat.mod_add by lia. destruct r as [|[|r]]; [| |lia]; cbn; ring.
    + replace (l / n_local b)%nat with 1%nat by (apply (Nat.div_unique l (n_local b) 1 (l - n_local b)); lia).
      replace (r + (2 * d + 1))%nat with (r + 1 + d * 2)%nat by ring. rewrite Nat.mod_add by lia. destruct r as [|[|r]]; [| |lia]; cbn; ring.
  - rewrite Nat.mod_1_r. cbn. ring.
Qed.
Lemma orthogonal r a : (r < total_rows b / n_batch b)%nat -> sum (total_rows b) (fun i => basis_row (total_rows b) (n_batch b) (devices b) r i * O i a) = 0.
Proof.
  intros R. unfold O. rewrite sum_rows.
  rewrite (sum_ext (devices b) _ (fun d => sum (rows b) (fun l => (if cplx b then (if (l <? n_local b)%nat then if r =? 0 then 1 else 0 else if r =? 0 then 0 else 1) else 1) * score cfg b d l a))).
  2: { intros d _. apply sum_ext. intros l L. rewrite flat_at, basis_value by auto. reflexivity. }
  unfold score, rows. rewrite null_rank_eq in R. destruct (cplx b).
  - rewrite (sum_ext (devices b) _ (fun d => sum (n_local b) (fun i => centred cfg b (if r =? 0 then re b else im b) d i a))).
    + apply centred_sum.
    + intros d _. rewrite sum_app. destruct r as [|r]; cbn [Nat.eqb].
      * rewrite (sum_0 (n_local b) (fun i => _ * (if (n_local b + i <? _)%nat then _ else _))).
        -- rewrite Rplus_0_r. apply sum_ext. intros i I. apply Nat.ltb_lt in I. rewrite I. ring.
        -- intros i I. replace ((n_local b + i <? n_local b)%nat) with false by (symmetry; apply Nat.ltb_ge; lia). ring.
      * rewrite (sum_0 (n_local b)).
        -- rewrite Rplus_0_l. apply sum_ext. intros i I. replace ((n_local b + i <? n_local b)%nat) with false by (symmetry; apply Nat.ltb_ge; lia).
           replace (n_local b + i - n_local b)%nat with i by lia. ring.
        -- intros i I. apply Nat.ltb_lt in I. rewrite I. ring.
  - rewrite (sum_ext (devices b) _ (fun d => sum (n_local b) (fun i => centred cfg b (re b) d i a))).
    + apply centred_sum.
    + intros d _. apply sum_ext. intros i I. apply Nat.ltb_lt in I. rewrite I. ring.
Qed.
Lemma deviation_eq x d i j : centred cfg b x d i j = (rescale cfg b d i * sel b x d i j - over_samples b (fun d i => rescale cfg b d i * sel b x d i j) / samples b) / sqrt (samples b).
Proof. unfold centred. rewrite mean_eq, samples_eq. reflexivity. Qed.
Definition at_active (j : nat) : nat := match active b with None => j | Some l => nth j l 0%nat end.
Lemma get_idx_at x j : get_idx (active b) x j = x (at_active j).
Proof. unfold get_idx, at_active. destruct (active b); reflexivity. Qed.
Lemma centred_eq x d i j : centred cfg b x d i j = deviation b (rescale cfg b) x d i (at_active j) / sqrt (samples b).
Proof. rewrite deviation_eq. unfold deviation, sel. rewrite get_idx_at. do 3 f_equal. unfold over_samples. apply sum_ext. intros e _. apply sum_ext. intros k _. rewrite get_idx_at. reflexivity. Qed.
Lemma cov_fisher a c : cov (total_rows b) O a c = fisher b (rescale cfg b) (at_active a) (at_active c).
Proof.
  unfold cov, fisher, over_samples, O. rewrite sum_rows. unfold Rdiv. rewrite <- sum_scal_r. apply sum_ext. intros d _. rewrite <- sum_scal_r.
  assert (SQ : sqrt (samples b) * sqrt (samples b) = samples b) by (apply sqrt_sqrt; rewrite samples_eq; left; apply n_batch_pos).
  assert (SP : 0 < samples b) by (rewrite samples_eq; apply n_batch_pos). assert (SR : 0 < sqrt (samples b)) by (apply sqrt_lt_R0; auto).
  assert (SI : / samples b = / sqrt (samples b) * / sqrt (samples b)) by (rewrite <- SQ at 1; field; lra).
  rewrite (sum_ext (rows b) _ (fun l => score cfg b d l a * score cfg b d l c)) by (intros l L; rewrite !flat_at by auto; reflexivity).
  unfold score, rows. destruct (cplx b).
  - rewrite sum_app, <- sum_plus. apply sum_ext. intros i I. replace ((n_local b + i <? n_local b)%nat) with false by (symmetry; apply Nat.ltb_ge; lia).
    replace (n_local b + i - n_local b)%nat with i by lia. apply Nat.ltb_lt in I. rewrite I. rewrite !centred_eq. rewrite SI. field. lra.
  - apply sum_ext. intros i I. apply Nat.ltb_lt in I. rewrite I. rewrite !centred_eq. rewrite SI. field. lra.
Qed.

Lemma score_var_nonneg j : 0 <= score_var cfg b j.
Proof. apply sum_nonneg. intros. apply sum_nonneg. intros. destruct (cplx b); nra. Qed.
Lemma normalised_nonneg j : 0 <= normalised_var cfg b j.
Proof.
  unfold normalised_var. pose proof (score_var_nonneg j). destruct (var_mask cfg b j); auto.
  match goal with |- 0 <= _ / (if Rlt_dec 0 ?m then _ else _) => destruct (Rlt_dec 0 m) end; (apply Rmult_le_pos; [auto|left; apply Rinv_0_lt_compat; lra]).
Qed.
Lemma current_nonneg st : nonneg_var st -> forall a, 0 <= current_var cfg b st a.
Proof.
  intros V a. unfold current_var. destruct (march cfg) as [beta|] eqn:M; [|apply V]. destruct (var_mode cfg); [|apply V].
  pose proof (proj1 (proj2 (proj2 U)) beta (counter st) M) as B.
  assert (K : forall j, 0 <= (if var_mask cfg b j then beta (counter st) * get_idx (active b) (acc_var st) j + (1 - beta (counter st)) * normalised_var cfg b j else get_idx (active b) (acc_var st) j)).
  { intros j. rewrite get_idx_at. pose proof (V (at_active j)). pose proof (normalised_nonneg j). destruct (var_mask cfg b j); nra. }
  unfold march_var_update, set_idx. destruct (active b) as [l|]; [|apply K]. destruct (position a l); [apply K|apply V].
Qed.
Lemma scaling_pos st : nonneg_var st -> forall a, 0 < scaling cfg b st a.
Proof.
  intros V a. unfold scaling. destruct (march cfg); [|lra]. apply Rinv_0_lt_compat, sqrt_lt_R0. pose proof (current_nonneg st V a). destruct U as [E _]. lra.
Qed.
Lemma metric_eq st a : metric cfg b st a = / scaling cfg b st a.
Proof. unfold metric, scaling. destruct (march cfg); [rewrite Rinv_inv; reflexivity|rewrite Rinv_1; reflexivity]. Qed.
Lemma lambda_pos st : 0 < lambda cfg b st.
Proof. destruct U as [_ [D _]]. unfold lambda. destruct (max_cond cfg); [|apply D]. eapply Rlt_le_trans; [apply D|apply Rmax_l]. Qed.
Lemma gram_is st : nonneg_var st -> calc_gram (devices b) (rows b) (cols b) (score cfg b) (get_idx (active b) (scaling cfg b st)) (chunks cfg) = gram_spec (cols b) O (get_idx (active b) (scaling cfg b st)).
Proof.
  intros V. apply functional_extensionality. intros r. apply functional_extensionality. intros q. apply calc_gram_eq.
  - apply NE.
  - apply U.
  - intros j _. rewrite get_idx_at. left. apply scaling_pos. auto.
Qed.

Section Step.
Variables (g : vec) (st : state).
Hypothesis V : nonneg_var st.
Let s := get_idx (active b) (scaling cfg b st).
Let ga := get_idx (active b) g.
Let pa := get_idx (active b) (momentum cfg st).
Let N := total_rows b.
Let lam := lambda cfg b st.
Let gam := gamma cfg b st.
Let f := fun i j => lifted cfg b st i j + lam * delta i j.
Let w := cho_solve N f (mv (cols b) O (fun a => s a * ga a)).
Let z := cho_solve N f (fun r => gam * mv (cols b) O (fun a => s a * ga a) r + mv (cols b) O pa r - (1 - gam * lam) * w r).
Lemma system_eq : f = lifted_system N (cols b) (n_batch b) (devices b) O s lam.
Proof.
  unfold f, lifted, lifted_system. apply functional_extensionality. intros i. apply functional_extensionality. intros j. rewrite gram_is by auto. fold s. fold N. rewrite lift_eq; [reflexivity|].
  intros r a R _. apply orthogonal. auto.
Qed.
Lemma s_pos a : 0 < s a. Proof. unfold s. rewrite get_idx_at. apply scaling_pos. auto. Qed.
Lemma f_posdef : posdef N f.
Proof.
  rewrite system_eq. apply system_posdef.
  - intros. left. apply s_pos.
  - apply lambda_pos.
  - pose proof n_batch_pos as Q. destruct (n_batch b) as [|k]; [cbn in Q; lra|lia].
Qed.
Lemma solved u : (forall r, (r < N / n_batch b)%nat -> proj N (n_batch b) (devices b) r u = 0) ->
  (forall r, (r < N / n_batch b)%nat -> proj N (n_batch b) (devices b) r (cho_solve N f u) = 0) /\
  forall i, (i < N)%nat -> mv N (fun i j => gram_spec (cols b) O s i j + lam * delta i j) (cho_solve N f u) i = u i.
Proof.
  intros H. apply (lift_solve N (cols b) (n_batch b) (devices b) O s lam).
  - apply lambda_pos.
  - pose proof n_batch_pos as Q. destruct (n_batch b) as [|k]; [cbn in Q; lra|lia].
  - intros r a R _. apply orthogonal. auto.
  - exact H.
  - intros i I. rewrite <- system_eq. apply cho_solve_correct; auto. apply f_posdef.
Qed.
Lemma proj_lin r c1 c2 u v x : proj N (n_batch b) (devices b) r (fun i => c1 * u i + v i - c2 * x i) = c1 * proj N (n_batch b) (devices b) r u + proj N (n_batch b) (devices b) r v - c2 * proj N (n_batch b) (devices b) r x.
Proof. unfold proj. rewrite <- !sum_scal_l, <- sum_plus, <- sum_minus. apply sum_ext. intros. ring. Qed.
Lemma orth_range r v : (r < N / n_batch b)%nat -> proj N (n_batch b) (devices b) r (mv (cols b) O v) = 0.
Proof. intros R. apply (range_orth N (cols b) (n_batch b) (devices b) O); auto. intros r' a R' _. apply orthogonal. auto. Qed.
Lemma active_solution : robust_solution (cols b) (cov N O) (fun a => / s a) lam gam ga pa (kernel_delta N O s gam ga pa z).
Proof.
  destruct (solved (mv (cols b) O (fun a => s a * ga a)) (fun r R => orth_range r _ R)) as [WO W]. fold w in WO, W.
  apply (kernel_solution N (cols b) O s lam gam ga pa w z).
  - intros. apply s_pos.
  - apply lambda_pos.
  - exact W.
  - apply solved. intros r R. rewrite proj_lin, !orth_range, WO by auto. ring.
Qed.
Lemma update_eq : fst (update cfg b g st) = set_idx (active b) (fun a => gam * (scaling cfg b st a * g a) + momentum cfg st a) (kernel_delta N O s gam ga pa z).
Proof.
  unfold update. cbn [fst]. fold lam gam. fold f. f_equal. apply functional_extensionality. intros j. unfold kernel_delta. fold s pa.
  assert (E1 : get_idx (active b) (fun a => scaling cfg b st a * g a) = (fun a => s a * ga a)) by (apply functional_extensionality; intros a; unfold s, ga; rewrite !get_idx_at; reflexivity).
  assert (E2 : global b (fun d l => sum (cols b) (fun j => score cfg b d l j * (s j * ga j))) = mv (cols b) O (fun a => s a * ga a)) by reflexivity.
  assert (E3 : (match spring cfg with Some _ => global b (fun d l => sum (cols b) (fun j => score cfg b d l j * pa j)) | None => fun _ => 0 end) = mv (cols b) O pa).
  { destruct (spring cfg) eqn:SP; [reflexivity|]. apply functional_extensionality. intros r. symmetry. apply sum_0. intros k _. unfold pa. rewrite get_idx_at. unfold momentum. rewrite SP. ring. }
  rewrite E1, E2, E3. fold N. fold w. fold z. do 2 f_equal. unfold tmv. unfold N. rewrite sum_rows. apply sum_ext. intros d _. apply sum_ext. intros l L. unfold O. rewrite flat_at by auto. reflexivity.
Qed.
End Step.
End Update.

Lemma solves_ext n a a' x rhs rhs' : (forall i j, (i < n)%nat -> (j < n)%nat -> a i j = a' i j) -> (forall i, (i < n)%nat -> rhs i = rhs' i) -> solves n a x rhs -> solves n a' x rhs'.
Proof. intros A R S i I. rewrite <- R by auto. rewrite <- (S i I). apply sum_ext. intros j J. rewrite A by auto. reflexivity. Qed.
Lemma damped_ext n h h' m m' lam : (forall i j, (i < n)%nat -> (j < n)%nat -> h i j = h' i j) -> (forall i, (i < n)%nat -> m i = m' i) -> forall i j, (i < n)%nat -> (j < n)%nat -> damped h m lam i j = damped h' m' lam i j.
Proof. intros H M i j I J. unfold damped. rewrite H, M by auto. reflexivity. Qed.
Lemma robust_ext n h h' m m' lam gam g p d d' : (forall i j, (i < n)%nat -> (j < n)%nat -> h i j = h' i j) -> (forall i, (i < n)%nat -> m i = m' i) -> (forall i, (i < n)%nat -> d i = d' i) ->
  robust_solution n h m lam gam g p d -> robust_solution n h' m' lam gam g p d'.
Proof.
  intros H M D [x [y [y' [X [Y [Y' E]]]]]]. exists x, y, y'. pose proof (damped_ext n h h' m m' lam H M) as DE.
  split; [|split; [|split]].
  - apply (solves_ext n _ _ _ _ _ DE) with (2 := X). intros i I. rewrite M by auto. reflexivity.
  - apply (solves_ext n _ _ _ _ _ DE) with (2 := Y). reflexivity.
  - apply (solves_ext n _ _ _ _ _ DE) with (2 := Y'). intros i I. rewrite M by auto. reflexivity.
  - intros a A. rewrite <- D by auto. apply E. auto.
Qed.

(** ** C41 *)
(** The update for every setting, batch, gradient and state: robust / SPRING / MARCH formula in
    parameter space. *)
Theorem C41_robust : forall cfg b g st, usable cfg -> nonempty b -> nonneg_var st -> active b = None ->
  robust_solution (n_params b) (fisher b (rescale cfg b)) (metric cfg b st) (lambda cfg b st) (gamma cfg b st) g (momentum cfg st) (fst (update cfg b g st)).
Proof.
  intros cfg b g st U NE V A. rewrite update_eq by auto. pose proof (active_solution cfg b U NE g st V) as S. unfold cols in *. rewrite A in *. cbn [width get_idx set_idx] in *.
  revert S. apply robust_ext.
  - intros i j _ _. rewrite cov_fisher by auto. unfold at_active. rewrite A. reflexivity.
  - intros i _. rewrite metric_eq by auto. reflexivity.
  - reflexivity.
Qed.
