(** C49: rejected iterations and the effective time step; C60: population control. *)
From Coq Require Import Reals List Arith Bool Lia Lra.
From Verif Require Import Dmc_Model Dmc_Spec Dmc_Props.
Import ListNotations.
Open Scope R_scope.

(** ** The effective time step *)
Lemma sum_map_fold {A} (f : A -> R) l : sum (map f l) = fold_right (fun x acc => f x + acc) 0 l.
Proof. unfold sum. induction l as [|x l IH]; cbn; [reflexivity|rewrite IH; reflexivity]. Qed.
Lemma attempted_app a b : attempted (a ++ b) = attempted a + attempted b.
Proof. unfold attempted. induction a as [|x a IH]; cbn [app fold_right]; [lra|rewrite IH; lra]. Qed.
Lemma accepted_app a b : accepted (a ++ b) = accepted a + accepted b.
Proof. unfold accepted. induction a as [|x a IH]; cbn [app fold_right]; [lra|rewrite IH; lra]. Qed.
Definition weight_of (ws : list (R * R * R)) : R := fold_right (fun x acc => snd x + acc) 0 ws.
Lemma weight_of_app a b : weight_of (a ++ b) = weight_of a + weight_of b.
Proof. unfold weight_of. induction a as [|x a IH]; cbn [app fold_right]; [lra|rewrite IH; lra]. Qed.
Definition eff_after (c : eff) (updates : list (list (R * R * R))) : eff := fold_left eff_update updates c.
Lemma eff_inv ts : forall updates, (forall u, In u updates -> 0 < weight_of u) ->
  let c := eff_after (eff_new ts) updates in e_step c = ts /\ e_total c = weight_of (concat updates) /\ e_den c * e_total c = attempted (concat updates) /\ e_num c * e_total c = accepted (concat updates) /\ 0 <= e_total c.
Proof.
  intros updates. induction updates as [|u us IH] using rev_ind; intros H; [cbn; unfold weight_of, attempted, accepted; cbn; repeat split; lra|].
  assert (H' : forall v, In v us -> 0 < weight_of v) by (intros v V; apply H, in_or_app; auto). assert (P : 0 < weight_of u) by (apply H, in_or_app; right; left; reflexivity). specialize (IH H'). cbv zeta in *. destruct IH as [A [B [C [D E]]]].
  unfold eff_after in *. rewrite fold_left_app. cbn [fold_left]. set (c := fold_left eff_update us (eff_new ts)) in *. unfold eff_update. cbn [e_step e_total e_den e_num].
  rewrite (sum_map_fold snd u), (sum_map_fold (fun x => fst (fst x) ^ 2 * snd x) u), (sum_map_fold (fun x => snd (fst x) * fst (fst x) ^ 2 * snd x) u). fold (weight_of u). fold (attempted u). fold (accepted u).
  rewrite concat_app, weight_of_app, attempted_app, accepted_app. cbn [concat]. rewrite app_nil_r. split; [exact A|]. split; [lra|]. split; [|split; [|lra]].
  - rewrite <- C. field. lra.
  - rewrite <- D. field. lra.
Qed.
(** The effective time step is the nominal one times the accepted fraction of the squared
    displacement, over all walkers of all updates so far. *)
Theorem C49_effective : forall ts updates, (forall u, In u updates -> 0 < weight_of u) -> 0 < attempted (concat updates) -> 0 <= accepted (concat updates) ->
  eff_run (eff_after (eff_new ts) updates) = ts * (accepted (concat updates) / attempted (concat updates)).
Proof.
  intros ts updates H AT AC. destruct (eff_inv ts updates H) as [A [B [C [D E]]]]. set (c := eff_after (eff_new ts) updates) in *. cbv zeta in *. unfold eff_run. rewrite A.
  destruct (Req_EM_T (e_total c) 0) as [Z|Z]; [rewrite Z, Rmult_0_r in C; lra|]. assert (TP : 0 < e_total c) by lra.
  assert (DP : 0 < e_den c) by (apply Rmult_lt_reg_r with (e_total c); [exact TP|rewrite Rmult_0_l, C; exact AT]).
  destruct (Req_EM_T (e_den c) 0) as [Z2|Z2]; [lra|]. rewrite <- C, <- D. destruct (Req_EM_T (e_num c) 0) as [Z3|Z3]; [rewrite Z3; field; lra|].
  assert (NP : 0 < e_num c). { assert (0 <= e_num c) by (apply Rmult_le_reg_r with (e_total c); [exact TP|rewrite Rmult_0_l, D; exact AC]). lra. }
  unfold Rminus. rewrite exp_plus, exp_Ropp, !exp_ln by assumption. field. lra.
Qed.
(** acceptance rates in [0,1]: between 0 and the nominal time step *)
Theorem C49_effective_bounds : forall ts updates, 0 < ts -> (forall u, In u updates -> 0 < weight_of u) -> 0 < attempted (concat updates) ->
  (forall x, In x (concat updates) -> 0 <= snd (fst x) <= 1 /\ 0 <= snd x) -> 0 <= eff_run (eff_after (eff_new ts) updates) <= ts.
Proof.
  intros ts updates TS H AT B. assert (Q : 0 <= accepted (concat updates) <= attempted (concat updates)).
  { clear AT H. unfold accepted, attempted. induction (concat updates) as [|x l IH]; cbn [fold_right]; [lra|]. destruct (B x (or_introl eq_refl)) as [P Q]. assert (I : forall y, In y l -> 0 <= snd (fst y) <= 1 /\ 0 <= snd y) by (intros y Y; apply B; right; exact Y). specialize (IH I).
    pose proof (pow2_ge_0 (fst (fst x))) as S. assert (0 <= fst (fst x) ^ 2 * snd x) by (apply Rmult_le_pos; [exact S|exact Q]). replace (snd (fst x) * fst (fst x) ^ 2 * snd x) with (snd (fst x) * (fst (fst x) ^ 2 * snd x)) by ring. nra. }
  rewrite C49_effective by (auto; lra). assert (F : 0 <= accepted (concat updates) / attempted (concat updates) <= 1).
  { split; [apply Rmult_le_pos; [lra|left; apply Rinv_0_lt_compat, AT]|]. apply Rmult_le_reg_r with (attempted (concat updates)); [exact AT|]. unfold Rdiv. rewrite Rmult_assoc, Rinv_l by lra. lra. }
  nra.
Qed.
(** ebye mode: the weighted mean of the walkers' own effective time steps *)
Definition ebye_num (ws : list (R * R)) : R := fold_right (fun x acc => fst x * snd x + acc) 0 ws.
Definition ebye_weight (ws : list (R * R)) : R := fold_right (fun x acc => snd x + acc) 0 ws.
Lemma ebye_num_app a b : ebye_num (a ++ b) = ebye_num a + ebye_num b. Proof. unfold ebye_num. induction a as [|x a IH]; cbn [app fold_right]; [lra|rewrite IH; lra]. Qed.
Lemma ebye_weight_app a b : ebye_weight (a ++ b) = ebye_weight a + ebye_weight b. Proof. unfold ebye_weight. induction a as [|x a IH]; cbn [app fold_right]; [lra|rewrite IH; lra]. Qed.
Lemma ebye_inv ts : forall updates, let c := fold_left eff_update_ebye updates (eff_new ts) in e_step c = ts /\ e_total c = ebye_weight (concat updates) /\ e_num c = ebye_num (concat updates) /\ e_den c = e_total c * ts.
Proof.
  intros updates. cbv zeta. induction updates as [|u us IH] using rev_ind; [cbn; unfold ebye_weight, ebye_num; cbn; repeat split; lra|]. destruct IH as [A [B [C D]]]. rewrite fold_left_app. cbn [fold_left]. unfold eff_update_ebye at 1 3 5 7 9. cbn [e_step e_total e_den e_num].
  rewrite (sum_map_fold snd u), (sum_map_fold (fun x => fst x * snd x) u). rewrite concat_app, ebye_weight_app, ebye_num_app. cbn [concat]. rewrite app_nil_r, A, B, C. auto.
Qed.
Theorem C49_effective_ebye : forall ts updates, 0 < ts -> 0 < ebye_weight (concat updates) -> 0 <= ebye_num (concat updates) ->
  eff_run (fold_left eff_update_ebye updates (eff_new ts)) = ebye_num (concat updates) / ebye_weight (concat updates).
Proof.
  intros ts updates TS WP NP. destruct (ebye_inv ts updates) as [A [B [C D]]]. cbv zeta in *. set (c := fold_left eff_update_ebye updates (eff_new ts)) in *. unfold eff_run. rewrite A, B, C, D, B.
  destruct (Req_EM_T (ebye_weight (concat updates)) 0); [lra|]. assert (DP : 0 < ebye_weight (concat updates) * ts) by (apply Rmult_lt_0_compat; assumption). destruct (Req_EM_T (ebye_weight (concat updates) * ts) 0); [lra|].
  destruct (Req_EM_T (ebye_num (concat updates)) 0) as [Z|Z]; [rewrite Z; field; lra|]. unfold Rminus. rewrite exp_plus, exp_Ropp, !exp_ln by lra. field. lra.
Qed.

(** ** Rejected iterations *)
Section Iter.
Variable W : Type.
Local Notation state := (state W).
Local Notation iteration := (iteration W).
Definition same_but_time_step (s s' : state) : Prop :=
  walkers W s' = walkers W s /\ weight W s' = weight W s /\ offset W s' = offset W s /\ target W s' = target W s /\ estimator W s' = estimator W s /\ calc W s' = calc W s.
(** A rejected iteration does not advance the index and leaves walkers, weights, offset, estimate
    and the estimator's history as they were: only the effective-time-step calculator differs. *)
Theorem C49_rejected_partial : forall c index s b mv br i s', iteration c index s b mv br = Some (i, Rejected W s') -> i = index /\ same_but_time_step s s'.
Proof.
  intros c index s b mv br i s' H. unfold Dmc_Model.iteration in H. cbv zeta in H. destruct (is_energy_outlier _ _ _).
  - apply (f_equal (fun o => match o with Some (a, Rejected _ x) => Some (a, x) | _ => None end)) in H. cbn in H. injection H as <- <-. split; [reflexivity|]. unfold same_but_time_step. cbn. auto 6.
  - destruct (mixed_run _ _ _ _ _) as [[c' e]|]; discriminate.
Qed.
(** With the flag off, a rejected iteration leaves the whole state as it was and an accepted one
    keeps the effective-time-step calculator. *)
Theorem C49_flag_off : forall c index s mv br i o, iteration c index s false mv br = Some (i, o) ->
  eff_calc W (out_state W o) = eff_calc W s /\ (forall s', o = Rejected W s' -> s' = s).
Proof.
  intros c index s mv br i o H. unfold Dmc_Model.iteration in H. cbv zeta in H. destruct (is_energy_outlier _ _ _).
  - injection H as <- <-. split; [reflexivity|]. intros s' E. injection E as <-. destruct s; reflexivity.
  - destruct (mixed_run _ _ _ _ _) as [[c' e]|]; [|discriminate]. injection H as <- <-. split; [reflexivity|]. intros s' E. discriminate.
Qed.
(** An iteration is rejected exactly when its energy is outside the band around the estimate. *)
Theorem C49_outlier : forall threshold energy anchor, is_energy_outlier threshold energy anchor = true <-> 0 < threshold /\ Rabs anchor * threshold < Rabs (energy - anchor).
Proof.
  intros th e a. unfold is_energy_outlier. destruct (Rle_dec th 0) as [L|L]; [split; [discriminate|lra]|]. cbv zeta. assert (T : 0 < th) by lra.
  assert (MM : Rmin (a * (1 - th)) (a * (1 + th)) = a - Rabs a * th /\ Rmax (a * (1 - th)) (a * (1 + th)) = a + Rabs a * th).
  { unfold Rabs. destruct (Rcase_abs a) as [N|N].
    - rewrite Rmin_right, Rmax_left by nra. split; ring.
    - rewrite Rmin_left, Rmax_right by nra. split; ring. }
  destruct MM as [-> ->]. set (r := Rabs a * th). destruct (Rlt_dec e (a - r)) as [A|A]; [split; [intros _; split; [exact T|]; unfold Rabs; destruct (Rcase_abs (e - a)); lra|reflexivity]|].
  destruct (Rlt_dec (a + r) e) as [B|B]; [split; [intros _; split; [exact T|]; unfold Rabs; destruct (Rcase_abs (e - a)); lra|reflexivity]|].
  split; [discriminate|]. intros [_ C]. exfalso. revert C. unfold Rabs at 1. destruct (Rcase_abs (e - a)); lra.
Qed.
End Iter.

(** *** The full statements are false *)
Definition cfg : config := {| c_time_step := 1; c_threshold := 1/2; c_clip := None; c_amplitude := 1; c_interval := 1%nat; c_period := 1%nat; c_period_neg := false |}.
Definition st : state unit := {| walkers := tt; weight := [1]; offset := 1; target := 1; estimator := 1; calc := mixed_new 1 1; eff_calc := eff_new 1 |}.
Definition mv (e : R) : move unit := {| mv_walkers := tt; mv_energy := [e]; mv_delta := [0]; mv_disp := [(1, 1/2)] |}.
Definition br (w : list R) : branched unit := {| br_weight := w; br_walkers := tt; br_energy := [1] |}.
Lemma avg_one e x : average_energy [e] [1 * exp (x * 0)] None = e.
Proof. unfold average_energy, sum, clip. cbn. rewrite Rmult_0_r, exp_0. field. Qed.
Lemma eff_half : eff_run (eff_update (eff_new 1) [(1, 1/2, 1)]) = 1/2.
Proof.
  change (eff_update (eff_new 1) [(1, 1 / 2, 1)]) with (eff_after (eff_new 1) [[(1, 1/2, 1)]]). rewrite C49_effective; unfold attempted, accepted, weight_of; cbn; try lra. intros u [<-|[]]; cbn; lra.
Qed.
(** A rejected iteration changes the effective time step: the retry, and every later step, uses
    the displacement statistics of the discarded move. *)
Theorem C49_rejected_refuted : exists (c : config) t (s : state unit) m b s', loop_step unit c t s m b = Some (t, Rejected unit s') /\ s' <> s /\ eff_run (eff_calc unit s) = 1 /\ eff_run (eff_calc unit s') = 1/2.
Proof.
  exists cfg, 5%nat, st, (mv 10), br, {| walkers := tt; weight := [1]; offset := 1; target := 1; estimator := 1; calc := mixed_new 1 1; eff_calc := eff_update (eff_new 1) [(1, 1/2, 1)] |}.
  assert (N : eff_run (eff_new 1) = 1) by (unfold eff_run, eff_new; cbn; destruct (Req_EM_T 0 0); lra).
  split; [|split; [|split; [exact N|exact eff_half]]].
  - unfold loop_step, iteration. cbv zeta. cbn [eff_calc st mv mv_disp weight combine mv_delta map fst snd mv_energy cfg c_clip]. rewrite avg_one.
    assert (O : is_energy_outlier (c_threshold cfg) 10 (estimator unit st) = true) by (apply C49_outlier; cbn; rewrite !Rabs_right by lra; lra). cbn [c_threshold cfg estimator st] in *. rewrite O. reflexivity.
  - intros E. apply (f_equal (fun s => eff_run (eff_calc unit s))) in E. cbn [eff_calc st] in E. rewrite eff_half, N in E. lra.
Qed.
(** The update period has no effect: the loop never passes the flag it computes. *)
Theorem C49_period_refuted : exists (c : config) t (s : state unit) m b o, should_update c t = false /\ loop_step unit c t s m b = Some (S t, o) /\ eff_calc unit (out_state unit o) <> eff_calc unit s.
Proof.
  exists cfg, 5%nat, st, (mv 1), br. unfold loop_step, iteration. cbv zeta. cbn [eff_calc st mv mv_disp weight combine mv_delta map fst snd mv_energy cfg c_clip]. rewrite avg_one.
  match goal with |- context [is_energy_outlier ?a ?b ?c] => destruct (is_energy_outlier a b c) eqn:O end; [apply C49_outlier in O; cbn in O; exfalso; destruct O as [_ O]; replace (1 - 1) with 0 in O by ring; rewrite Rabs_R0, Rabs_R1 in O; lra|].
  destruct (mixed_run _ _ _ _ _) as [[c' e]|] eqn:M.
  - eexists. split; [reflexivity|]. split; [reflexivity|]. cbn [out_state eff_calc]. intros E. apply (f_equal e_total) in E. cbn in E. lra.
  - exfalso. unfold mixed_run in M. cbv zeta in M. unfold normalized in M. destruct (maximum _) eqn:Q; [discriminate|]. unfold maximum in Q. cbn in Q. discriminate.
Qed.
(** ... so every step of the loop updates the calculator, whatever the configured period. *)
Theorem C49_always_updated : forall W c t s m b i o, loop_step W c t s m b = Some (i, o) -> eff_calc W (out_state W o) = eff_update (eff_calc W s) (combine (mv_disp W m) (weight W s)).
Proof.
  intros W c t s m b i o H. unfold loop_step, iteration in H. cbv zeta in H. destruct (is_energy_outlier _ _ _).
  - injection H as <- <-. reflexivity.
  - destruct (mixed_run _ _ _ _ _) as [[c' e]|]; [|discriminate]. injection H as <- <-. reflexivity.
Qed.

(** ** C60: population control *)
(** An accepted iteration advances the index, keeps the target, takes the branched population and
    changes the offset only when the index is a multiple of the interval, using the new estimate,
    the new total weight and the amplitude rescaled by nominal / effective time step. *)
Theorem C60_offset_schedule : forall W c index s b m br i s' e eff, iteration W c index s b m br = Some (i, Accepted W s' e eff) ->
  i = S index /\ target W s' = target W s /\
  (exists moved, length moved = Nat.min (length (weight W s)) (length (mv_delta W m)) /\
    (forall k, (k < length moved)%nat -> nth k moved 0 = nth k (weight W s) 0 * exp (eff * nth k (mv_delta W m) 0)) /\
    walkers W s' = br_walkers W (br moved) /\ weight W s' = br_weight W (br moved)) /\
  ((exists q, index = (q * c_interval c)%nat) -> (0 < c_interval c)%nat ->
     offset W s' = estimator W s' - c_amplitude c * c_time_step c / eff * ln (sum (weight W s') / target W s)) /\
  (~ (exists q, index = (q * c_interval c)%nat) -> (0 < c_interval c)%nat -> offset W s' = offset W s).
Proof.
  intros W c index s b m br i s' e eff H. unfold iteration in H. cbv zeta in H. destruct (is_energy_outlier _ _ _); [discriminate|].
  destruct (mixed_run _ _ _ _ _) as [[c' est]|]; [|discriminate].
  match type of H with Some (_, Accepted _ ?a ?x ?y) = _ => assert (E1 : i = S index) by congruence; assert (E2 : s' = a) by congruence; assert (E3 : eff = y) by congruence end. clear H. rewrite E2, <- E3. cbn [target walkers weight offset estimator].
  split; [exact E1|]. split; [reflexivity|]. split; [|split].
  - eexists. split; [|split; [|split; reflexivity]]; rewrite map_length, combine_length; [reflexivity|]. intros k K.
    match goal with |- nth k (map ?f _) 0 = _ => rewrite (nth_indep _ 0 (f (0, 0))) by (rewrite map_length, combine_length; exact K); rewrite (map_nth f) end.
    assert (CN : forall (l : list R) l', (k < Nat.min (length l) (length l'))%nat -> nth k (combine l l') (0, 0) = (nth k l 0, nth k l' 0)). { clear. revert k. induction k as [|k IH]; intros [|x l] [|y l'] Q; cbn in *; try lia; [reflexivity|apply IH; lia]. } rewrite CN by exact K. reflexivity.
  - intros [q Q] P. assert (M : (index mod c_interval c = 0)%nat) by (rewrite Q; apply Nat.mod_mul; lia). rewrite M. cbn [Nat.eqb]. reflexivity.
  - intros N P. destruct (Nat.eqb_spec (index mod c_interval c) 0) as [Z|Z]; [|reflexivity]. exfalso. apply N. exists (index / c_interval c)%nat. pose proof (Nat.div_mod index (c_interval c) ltac:(lia)). lia.
Qed.
(** The new energy offset is above the estimate exactly when the total weight is below target. *)
Theorem C60_offset_sign : forall est amp total target, 0 < amp -> 0 < total -> 0 < target ->
  (est < update_energy_offset est amp total target <-> total < target) /\ (update_energy_offset est amp total target = est <-> total = target).
Proof.
  intros est amp total target A T G. unfold update_energy_offset. assert (Q : ln (total / target) = ln total - ln target) by (unfold Rdiv; rewrite ln_mult, ln_Rinv; [ring|lra|exact T|apply Rinv_0_lt_compat, G]). rewrite Q.
  destruct (Rtotal_order total target) as [L|[E|L]].
  - pose proof (ln_increasing total target T L). split; split; intros; try lra; nra.
  - subst. split; split; intros; try lra. 
  - pose proof (ln_increasing target total G L). split; split; intros; try lra; nra.
Qed.
(** strictly decreasing in the total weight *)
Theorem C60_offset_monotone : forall est amp w1 w2 target, 0 < amp -> 0 < w1 -> w1 < w2 -> 0 < target -> update_energy_offset est amp w2 target < update_energy_offset est amp w1 target.
Proof.
  intros est amp w1 w2 target A W L G. unfold update_energy_offset. assert (I : 0 < / target) by (apply Rinv_0_lt_compat, G). assert (H : ln (w1 / target) < ln (w2 / target)) by (apply ln_increasing; unfold Rdiv; [apply Rmult_lt_0_compat; assumption|apply Rmult_lt_compat_r; assumption]). nra.
Qed.
(** The averaged energy does not depend on the scale of the weights and stays within any bounds
    that hold for the clipped energies. *)
Lemma average_alt e w pair : length e = length w -> sum w <> 0 -> average_energy e w pair = fold_right (fun x acc => fst x * snd x + acc) 0 (combine (map (clip pair) e) w) / sum w.
Proof.
  intros L NZ. unfold average_energy. rewrite sum_map_fold. generalize (sum w) as t, NZ. clear NZ. intros t NZ. revert w L. induction e as [|x e IH]; intros [|y w] L; try discriminate; cbn [combine map fold_right fst snd]; [field; exact NZ|]. rewrite IH by (cbn in L; lia). field. exact NZ.
Qed.
Theorem C60_average_scale : forall e w pair k, k <> 0 -> sum w <> 0 -> average_energy e (map (fun x => k * x) w) pair = average_energy e w pair.
Proof.
  intros e w pair k K S. assert (SK : sum (map (fun x => k * x) w) = k * sum w) by (clear S; unfold sum; induction w as [|x w IH]; cbn; [ring|rewrite IH; ring]). unfold average_energy. rewrite SK. f_equal.
  generalize (sum w) as t, S. intros t T. clear - K T. revert w. induction e as [|x e IH]; intros [|y w]; cbn [map combine fst snd]; try reflexivity. rewrite IH. f_equal. field. auto.
Qed.
Theorem C60_average_bounds : forall e w pair lo hi, length e = length w -> e <> [] -> (forall x, In x w -> 0 < x) -> (forall x, In x e -> lo <= clip pair x <= hi) -> lo <= average_energy e w pair <= hi.
Proof.
  intros e w pair lo hi L NE P B. assert (SN : fold_right (fun x acc => snd x + acc) 0 (combine (map (clip pair) e) w) = sum w).
  { clear - L. revert w L. induction e as [|x e IH]; intros [|y w] L; try discriminate; cbn [combine map fold_right snd sum]; [reflexivity|]. unfold sum in IH. rewrite IH by (cbn in L; lia). reflexivity. }
  assert (NE2 : combine (map (clip pair) e) w <> []) by (destruct e, w; try discriminate; congruence).
  assert (H : forall x, In x (combine (map (clip pair) e) w) -> lo <= fst x <= hi /\ 0 < snd x).
  { intros [a b] I. cbn. pose proof (in_combine_l _ _ _ _ I) as IL. pose proof (in_combine_r _ _ _ _ I) as IR. apply in_map_iff in IL as [z [<- Z]]. auto. }
  pose proof (average_bounds lo hi _ NE2 H) as Q. unfold weighted_average in Q. rewrite SN in Q. rewrite average_alt; [exact Q|exact L|]. rewrite <- SN. pose proof (sum_pos _ NE2 (fun x I => proj2 (H x I))). lra.
Qed.
Theorem C60_clip_bounds : forall lo hi x, lo <= hi -> lo <= clip (Some (lo, hi)) x <= hi /\ (lo <= x <= hi -> clip (Some (lo, hi)) x = x).
Proof. intros lo hi x H. unfold clip, Rmin, Rmax. destruct (Rle_dec x lo), (Rle_dec _ hi); lra. Qed.
Example C60_average_example : average_energy [1; 4] [3; 1] None = 7/4. Proof. unfold average_energy, sum, clip. cbn. field. Qed.
Print Assumptions C49_effective. Print Assumptions C49_effective_bounds. Print Assumptions C49_effective_ebye. Print Assumptions C49_rejected_partial. Print Assumptions C49_flag_off. Print Assumptions C49_outlier.
Print Assumptions C49_rejected_refuted. Print Assumptions C49_period_refuted. Print Assumptions C49_always_updated. Print Assumptions C60_offset_sign. Print Assumptions C60_offset_monotone. Print Assumptions C60_average_scale. Print Assumptions C60_average_bounds. Print Assumptions C60_clip_bounds.
