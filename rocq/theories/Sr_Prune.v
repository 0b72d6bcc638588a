(** C41: pruning parameters whose scores vanish does not change the update; lifting the null
    space does not change the solve; examples. *)
From Coq Require Import Reals List Arith Bool Lra Lia FunctionalExtensionality.
From Verif Require Import Lin Shape Sr_Model Sr_Spec Sr_Lemmas Sr_Kernel Sr_Props Sr_More.
Import ListNotations.
Open Scope R_scope.
Local Notation "a =? b" := (Nat.eqb a b).

(** ** Lifting *)
(** For a score matrix with centred rows ([basis_row]: the all-one vector, or the indicators of
    the real and the imaginary rows), solving the lifted system with a right-hand side in the
    range of the score matrix gives the solution of the original one. *)
Theorem C41_lift : forall N P n_batch n_device o s lam v, (1 <= n_batch)%nat -> 0 < lam -> (forall a, (a < P)%nat -> 0 <= s a) ->
  (forall r a, (r < N / n_batch)%nat -> (a < P)%nat -> sum N (fun i => basis_row N n_batch n_device r i * o i a) = 0) ->
  let gram := fun i j => sum P (fun a => o i a * s a * o j a) in
  let rhs := fun i => sum P (fun a => o i a * v a) in
  forall i, (i < N)%nat ->
    cho_solve N (fun i j => lift_null_space gram N n_batch n_device i j + lam * delta i j) rhs i = cho_solve N (fun i j => gram i j + lam * delta i j) rhs i.
Proof.
  intros N P nb nd o s lam v NB L S C gram rhs.
  assert (E : (fun i j => lift_null_space gram N nb nd i j + lam * delta i j) = lifted_system N P nb nd o s lam).
  { apply functional_extensionality. intros i. apply functional_extensionality. intros j. unfold lifted_system. rewrite <- (lift_eq N P nb nd o s C i j). reflexivity. }
  assert (PD : posdef N (fun i j => gram i j + lam * delta i j)).
  { split.
    - intros i j I J. rewrite (gram_sym N P o s i j I J : gram i j = gram j i). unfold delta. rewrite (Nat.eqb_sym j i). reflexivity.
    - intros u HU. unfold quad. rewrite (sum_ext N _ (fun i => u i * mv N gram u i + lam * (u i * u i))).
      + rewrite sum_plus, sum_scal_l. pose proof (G_nonneg N P o s S u) as G. unfold quad in G. change (gram_spec P o s) with gram in G. pose proof (sum_sq_pos N u HU). nra.
      + intros i I. rewrite (mv_ext N (fun i j => gram i j + lam * delta i j) (fun i j => gram i j + lam * (1 * delta i j)) u u i) by (intros; ring). rewrite mv_diag by auto. ring. }
  intros i I. apply (posdef_unique N _ _ _ PD); auto. intros k K. rewrite (cho_solve_correct N _ rhs PD) by auto. rewrite E.
  apply (lift_solve N P nb nd o s lam L NB C (cho_solve N (lifted_system N P nb nd o s lam) rhs) rhs); auto.
  - intros r R. apply (range_orth N P nb nd o C r v R).
  - intros q Q. apply cho_solve_correct; auto. apply system_posdef; auto.
Qed.

(** ** Pruning *)
Definition full (b : batch) : batch :=
  {| devices := devices b; n_local := n_local b; n_params := n_params b; re := re b; im := im b; cplx := cplx b; active := None |}.
Lemma position_nth a l j : position a l = Some j -> nth j l 0%nat = a /\ (j < length l)%nat.
Proof.
  revert j. induction l as [|x l IH]; intros j H; [discriminate|]. cbn in H. destruct (Nat.eqb_spec x a) as [->|N].
  - injection H as <-. cbn. split; [reflexivity|lia].
  - destruct (position a l) as [k|] eqn:E; [|discriminate]. injection H as <-. destruct (IH k eq_refl). cbn. split; [auto|lia].
Qed.
Lemma position_none a l : position a l = None <-> ~ In a l.
Proof.
  induction l as [|x l IH]; cbn; [tauto|]. destruct (Nat.eqb_spec x a) as [->|N]; [split; [discriminate|tauto]|].
  destruct (position a l); cbn; [split; [discriminate|]|]; intuition (try discriminate; auto). 
Qed.
Lemma sum_indicator P a (c : R) : (a < P)%nat -> sum P (fun x => if a =? x then c else 0) = c.
Proof.
  intros H. rewrite (sum_ext P _ (fun x => c * delta x a)); [apply (sum_delta_r P (fun _ => c) a H)|]. intros x _. unfold delta. rewrite (Nat.eqb_sym x a). destruct (a =? x); ring.
Qed.
Lemma sum_list (f : nat -> R) : forall l, sum (length l) (fun j => f (nth j l 0%nat)) = fold_right (fun a s => f a + s) 0 l.
Proof.
  induction l as [|x l IH]; [reflexivity|]. cbn [length fold_right]. replace (S (length l)) with (1 + length l)%nat by lia. rewrite sum_app. cbn [sum nth Nat.add]. rewrite IH. ring.
Qed.
Lemma sum_pruned P l (f : nat -> R) : NoDup l -> (forall a, In a l -> (a < P)%nat) -> (forall a, (a < P)%nat -> ~ In a l -> f a = 0) ->
  sum (length l) (fun j => f (nth j l 0%nat)) = sum P f.
Proof.
  intros ND B Z. rewrite sum_list. transitivity (sum P (fun a => fold_right (fun x s => (if x =? a then f x else 0) + s) 0 l)).
  - clear Z ND. induction l as [|x l IH]; [cbn; rewrite sum_0; auto|]. cbn [fold_right]. rewrite sum_plus, sum_indicator by (apply B; left; auto). rewrite IH by (intros; apply B; right; auto). reflexivity.
  - apply sum_ext. intros a A. specialize (Z a A). clear B. induction ND as [|x l NI ND IH]; cbn [fold_right]; [rewrite Z; auto; intros []|].
    destruct (Nat.eqb_spec x a) as [->|N].
    + clear IH Z. assert (K : fold_right (fun x s => (if x =? a then f x else 0) + s) 0 l = 0).
      { clear ND. induction l as [|y l IHl]; [reflexivity|]. cbn. destruct (Nat.eqb_spec y a) as [->|]; [exfalso; apply NI; left; auto|]. rewrite IHl; [ring|]. intros I. apply NI. right. auto. }
      rewrite K. ring.
    + rewrite IH; [ring|]. intros H. apply Z. intros [E|I]; auto.
Qed.

Section Prune.
Variable cfg : settings.
Variable b : batch.
Variable l : list nat.
Hypothesis A : active b = Some l.
Hypothesis ND : NoDup l.
Hypothesis IN : forall a, In a l -> (a < n_params b)%nat.
Hypothesis CL : clip cfg = None.
Hypothesis E0 : 0 < eps cfg.
Hypothesis ZR : forall d i a, (a < n_params b)%nat -> ~ In a l -> re b d i a = 0 /\ im b d i a = 0.
Hypothesis U : usable cfg.
Hypothesis NE : nonempty b.
Let b0 := full b.
Lemma rescale_1 d i : rescale cfg b d i = 1 /\ rescale cfg b0 d i = 1.
Proof. unfold rescale. rewrite CL. split; reflexivity. Qed.
Lemma mean_prune x j : mean_score cfg b x j = mean_score cfg b0 x (nth j l 0%nat).
Proof. unfold mean_score, sel. cbn [devices n_local b0 full active get_idx]. rewrite A. f_equal. apply sum_ext. intros d _. f_equal. apply sum_ext. intros i _. destruct (rescale_1 d i) as [-> ->]. reflexivity. Qed.
Lemma centred_prune x d i j : centred cfg b x d i j = centred cfg b0 x d i (nth j l 0%nat).
Proof. unfold centred, sel. rewrite mean_prune. destruct (rescale_1 d i) as [-> ->]. cbn [active b0 full get_idx]. rewrite A. reflexivity. Qed.
Lemma score_prune d r j : score cfg b d r j = score cfg b0 d r (nth j l 0%nat).
Proof. unfold score. rewrite !centred_prune. reflexivity. Qed.
Lemma centred_zero x d i a : (forall d i, x d i a = 0) -> centred cfg b0 x d i a = 0.
Proof.
  intros H. unfold centred, mean_score, sel. cbn [active b0 full get_idx]. rewrite H, (sum_0 (devices b0)); [unfold Rdiv; ring|]. intros e _. rewrite sum_0; [unfold Rdiv; ring|]. intros k _. rewrite H. ring.
Qed.
Lemma score_zero d r a : (a < n_params b)%nat -> ~ In a l -> score cfg b0 d r a = 0.
Proof. intros I N. unfold score. destruct (_ <? _)%nat; apply centred_zero; intros; apply ZR; auto. Qed.
Lemma var_prune j : score_var cfg b j = score_var cfg b0 (nth j l 0%nat).
Proof. unfold score_var. apply sum_ext. intros d _. apply sum_ext. intros i _. rewrite !centred_prune. reflexivity. Qed.
Lemma var_zero a : (a < n_params b)%nat -> ~ In a l -> score_var cfg b0 a = 0.
Proof.
  intros I N. apply sum_0. intros d _. apply sum_0. intros i _. rewrite !(centred_zero (re b0)) by (intros; apply ZR; auto). rewrite !(centred_zero (im b0)) by (intros; apply ZR; auto). destruct (cplx b0); ring.
Qed.
Lemma mask_prune j : var_mask cfg b j = var_mask cfg b0 (nth j l 0%nat).
Proof. unfold var_mask. rewrite var_prune. reflexivity. Qed.
Lemma mask_zero a : (a < n_params b)%nat -> ~ In a l -> var_mask cfg b0 a = false.
Proof. intros I N. unfold var_mask. rewrite var_zero by auto. destruct (Rlt_dec (eps cfg) 0); [lra|reflexivity]. Qed.
Lemma cols_eq : cols b = length l /\ cols b0 = n_params b.
Proof. unfold cols. rewrite A. split; reflexivity. Qed.
Lemma normal_prune j : normalised_var cfg b j = normalised_var cfg b0 (nth j l 0%nat).
Proof.
  unfold normalised_var. destruct cols_eq as [-> ->]. rewrite mask_prune, var_prune.
  rewrite (sum_ext (length l) (fun k => if var_mask cfg b k then score_var cfg b k else 0) (fun k => (fun a => if var_mask cfg b0 a then score_var cfg b0 a else 0) (nth k l 0%nat))) by (intros; rewrite mask_prune, var_prune; reflexivity).
  rewrite (sum_ext (length l) (fun k => if var_mask cfg b k then 1 else 0) (fun k => (fun a => if var_mask cfg b0 a then 1 else 0) (nth k l 0%nat))) by (intros; rewrite mask_prune; reflexivity).
  rewrite (sum_pruned (n_params b) l (fun a => if var_mask cfg b0 a then score_var cfg b0 a else 0)) by (auto; intros; rewrite mask_zero; auto).
  rewrite (sum_pruned (n_params b) l (fun a => if var_mask cfg b0 a then 1 else 0)) by (auto; intros; rewrite mask_zero; auto). reflexivity.
Qed.
Lemma current_prune st a : (a < n_params b)%nat -> current_var cfg b st a = current_var cfg b0 st a.
Proof.
  intros I. unfold current_var. destruct (march cfg); auto. destruct (var_mode cfg); auto. unfold march_var_update. cbn [active b0 full set_idx get_idx]. rewrite A. cbn [set_idx get_idx].
  destruct (position a l) as [j|] eqn:P.
  - apply position_nth in P as [P _]. rewrite mask_prune, normal_prune, P. reflexivity.
  - apply position_none in P. fold b0. rewrite mask_zero by auto. reflexivity.
Qed.
Lemma scaling_prune st a : (a < n_params b)%nat -> scaling cfg b st a = scaling cfg b0 st a.
Proof. intros I. unfold scaling. destruct (march cfg); auto. rewrite current_prune by auto. reflexivity. Qed.
Lemma sum_scores d r x x0 : (forall a, (a < n_params b)%nat -> x a = x0 a) -> sum (cols b) (fun j => score cfg b d r j * get_idx (active b) x j) = sum (cols b0) (fun a => score cfg b0 d r a * x0 a).
Proof.
  intros H. destruct cols_eq as [-> ->]. rewrite (sum_ext (length l) _ (fun j => (fun a => score cfg b0 d r a * x a) (nth j l 0%nat))) by (intros; rewrite score_prune, A; reflexivity).
  rewrite (sum_pruned (n_params b) l (fun a => score cfg b0 d r a * x a)) by (auto; intros; rewrite score_zero by auto; ring). apply sum_ext. intros a I. rewrite H by auto. reflexivity.
Qed.
Lemma lifted_prune st : nonneg_var st -> lifted cfg b st = lifted cfg b0 st.
Proof.
  intros V. unfold lifted. change (total_rows b0) with (total_rows b). change (n_batch b0) with (n_batch b). change (devices b0) with (devices b) at 2. f_equal.
  rewrite gram_is by auto. rewrite (gram_is cfg b0 U NE st V). apply functional_extensionality. intros r. apply functional_extensionality. intros q. unfold gram_spec. destruct cols_eq as [-> ->].
  change (rows b0) with (rows b). unfold flat. rewrite (sum_ext (length l) _ (fun j => (fun a => score cfg b0 (r / rows b) (r mod rows b) a * scaling cfg b st a * score cfg b0 (q / rows b) (q mod rows b) a) (nth j l 0%nat))).
  - rewrite (sum_pruned (n_params b) l (fun a => score cfg b0 (r / rows b) (r mod rows b) a * scaling cfg b st a * score cfg b0 (q / rows b) (q mod rows b) a)) by (auto; intros; rewrite !score_zero by auto; ring). apply sum_ext. intros a I. rewrite scaling_prune by auto. reflexivity.
  - intros j _. rewrite !score_prune, A. reflexivity.
Qed.
Lemma lambda_prune st : nonneg_var st -> lambda cfg b st = lambda cfg b0 st.
Proof. intros V. unfold lambda. rewrite lifted_prune by auto. reflexivity. Qed.
Lemma delta_prune g st a : nonneg_var st -> (a < n_params b)%nat -> fst (update cfg b g st) a = fst (update cfg b0 g st) a.
Proof.
  intros V I. unfold update. cbn [fst]. unfold gamma. rewrite lambda_prune, lifted_prune by auto. set (lam := lambda cfg b0 st). set (gam := get_gamma _ _ _ _).
  assert (G1 : global b (fun d r => sum (cols b) (fun j => score cfg b d r j * get_idx (active b) (fun a => scaling cfg b st a * g a) j)) = global b0 (fun d r => sum (cols b0) (fun j => score cfg b0 d r j * get_idx (active b0) (fun a => scaling cfg b0 st a * g a) j))).
  { apply functional_extensionality. intros r. unfold global. apply sum_scores. intros x X. rewrite scaling_prune by auto. reflexivity. }
  assert (G2 : global b (fun d r => sum (cols b) (fun j => score cfg b d r j * get_idx (active b) (momentum cfg st) j)) = global b0 (fun d r => sum (cols b0) (fun j => score cfg b0 d r j * get_idx (active b0) (momentum cfg st) j))).
  { apply functional_extensionality. intros r. unfold global. apply sum_scores. reflexivity. }
  rewrite G1, G2. change (total_rows b0) with (total_rows b). change (devices b0) with (devices b). change (rows b0) with (rows b). 
  set (z := cho_solve _ _ _). cbv zeta. rewrite A. cbn [active b0 full set_idx get_idx].
  assert (SC : scaling cfg b st a = scaling cfg b0 st a) by (apply scaling_prune; auto).
  destruct (position a l) as [j|] eqn:P.
  - apply position_nth in P as [P _]. rewrite P. fold b0. rewrite SC. do 2 f_equal. apply sum_ext. intros d _. apply sum_ext. intros r _. rewrite score_prune, P. reflexivity.
  - apply position_none in P. fold b0. rewrite SC. rewrite (sum_0 (devices b)); [ring|]. intros d _. apply sum_0. intros r _. rewrite score_zero by auto. ring.
Qed.
End Prune.
(** Pruning with [prune_inactive]: if the pruned parameters have zero scores (no score clipping),
    the update and the new optimizer state are those of the full computation. *)
Theorem C41_prune : forall cfg b l g st, usable cfg -> nonempty b -> nonneg_var st -> clip cfg = None ->
  active b = Some l -> NoDup l -> (forall a, In a l -> (a < n_params b)%nat) ->
  (forall d i a, (a < n_params b)%nat -> ~ In a l -> re b d i a = 0 /\ im b d i a = 0) ->
  forall a, (a < n_params b)%nat ->
    fst (update cfg b g st) a = fst (update cfg (full b) g st) a /\
    counter (snd (update cfg b g st)) = counter (snd (update cfg (full b) g st)) /\
    prev_delta (snd (update cfg b g st)) a = prev_delta (snd (update cfg (full b) g st)) a /\
    acc_var (snd (update cfg b g st)) a = acc_var (snd (update cfg (full b) g st)) a.
Proof.
  intros cfg b l g st U NE V CL A ND IN Z a I. pose proof (proj1 U) as E.
  pose proof (delta_prune cfg b l A ND IN CL E Z U NE g st a V I) as D. split; [exact D|]. split; [reflexivity|]. split; [exact D|].
  assert (AV : forall b', acc_var (snd (update cfg b' g st)) a = match march cfg with Some beta => if var_mode cfg then current_var cfg b' st a else beta (counter st) * current_var cfg b' st a + (1 - beta (counter st)) * ((fst (update cfg b' g st) a - prev_delta st a) * (fst (update cfg b' g st) a - prev_delta st a)) | None => current_var cfg b' st a end).
  { intros b'. unfold update. cbn [snd acc_var fst]. destruct (march cfg); [destruct (var_mode cfg)|]; reflexivity. }
  rewrite !AV, D. rewrite (current_prune cfg b l A ND IN CL E Z st a I). reflexivity.
Qed.
(** leaf masks: the selected leaves, flattened, are the entries of the full vector at the active
    indices, which are distinct and in range *)
Lemma leaf_indices_spec {A} (dflt : A) : forall leaves mask pre, length mask = length leaves ->
  ravel_selected leaves mask = map (fun i => nth i (pre ++ concat leaves) dflt) (leaf_indices (length pre) (map (@length A) leaves) mask) /\
  NoDup (leaf_indices (length pre) (map (@length A) leaves) mask) /\
  (forall i, In i (leaf_indices (length pre) (map (@length A) leaves) mask) -> (length pre <= i < length pre + length (concat leaves))%nat).
Proof.
  induction leaves as [|x leaves IH]; intros [|m mask] pre L; try discriminate; [cbn; split; [reflexivity|split; [constructor|intros i []]]|].
  injection L as L. specialize (IH mask (pre ++ x) L). rewrite app_length in IH. destruct IH as [R [N B]]. cbn [ravel_selected map leaf_indices concat].
  assert (SN : map (fun i => nth i (pre ++ x ++ concat leaves) dflt) (seq (length pre) (length x)) = x).
  { apply nth_ext with (d := dflt) (d' := dflt); [rewrite map_length, seq_length; reflexivity|]. intros k K. rewrite map_length, seq_length in K.
    rewrite (nth_indep _ dflt ((fun i => nth i (pre ++ x ++ concat leaves) dflt) 0%nat)) by (rewrite map_length, seq_length; auto).
    rewrite (map_nth (fun i => nth i (pre ++ x ++ concat leaves) dflt)). rewrite seq_nth by auto. rewrite app_nth2 by lia. replace (length pre + k - length pre)%nat with k by lia. apply app_nth1. auto. }
  rewrite <- app_assoc in R. split; [|split].
  - rewrite map_app, R. f_equal. destruct m; [symmetry; exact SN|reflexivity].
  - destruct m; cbn [app]; [|exact N]. assert (D : forall i, In i (seq (length pre) (length x)) -> ~ In i (leaf_indices (length pre + length x) (map (@length A) leaves) mask)) by (intros i I J; apply in_seq in I; apply B in J; lia).
    clear SN. revert D N. generalize (seq_NoDup (length x) (length pre)). generalize (leaf_indices (length pre + length x) (map (@length A) leaves) mask). induction (seq (length pre) (length x)) as [|i s IHs]; intros t NS D N; [exact N|].
    inversion NS; subst. cbn. constructor; [|apply IHs; auto; intros; apply D; right; auto]. intros J. apply in_app_or in J as [J|J]; [auto|]. apply (D i); [left; reflexivity|exact J].
  - intros i I. rewrite app_length. apply in_app_or in I as [I|I].
    + destruct m; [|destruct I]. apply in_seq in I. lia.
    + apply B in I. lia.
Qed.
Theorem C41_leaf_selection : forall A (dflt : A) leaves mask, length mask = length leaves ->
  let idx := active_leaf_indices (map (@length A) leaves) mask in
  ravel_selected leaves mask = map (fun i => nth i (concat leaves) dflt) idx /\ NoDup idx /\ forall i, In i idx -> (i < length (concat leaves))%nat.
Proof.
  intros A dflt leaves mask L idx. destruct (leaf_indices_spec dflt leaves mask [] L) as [R [N B]]. split; [exact R|]. split; [exact N|]. intros i I. apply B in I. cbn in I. lia.
Qed.

(** ** A concrete optimizer and batch: 2 devices, 2 complex samples each, 3 parameters, all
    features on; the third parameter is inactive. *)
Definition demo_cfg : settings :=
  {| damping := fun t => / (1 + INR t); max_cond := Some 10; start := fun _ => 1; robust := Sqrt; spring := Some (fun _ => 9 / 10);
     march := Some (fun _ => 99 / 100); var_mode := true; eps := / 100000000; clip := None; chunks := Some 2%nat |}.
Definition demo_batch : batch :=
  {| devices := 2; n_local := 2; n_params := 3; re := fun d i a => if (a <? 2)%nat then INR (d + 2 * i + a) else 0; im := fun d i a => if (a =? 0) then INR (d * i) else 0;
     cplx := true; active := Some (active_leaf_indices [2; 1]%nat [true; false]) |}.
Example C41_hypotheses_met : usable demo_cfg /\ nonempty demo_batch /\ nonneg_var init /\ clip demo_cfg = None /\ active demo_batch = Some [0; 1]%nat /\ active (full demo_batch) = None /\
  (forall d i a, (a < 3)%nat -> ~ In a [0; 1]%nat -> re demo_batch d i a = 0 /\ im demo_batch d i a = 0).
Proof.
  split; [|split; [|split; [|split; [|split; [|split]]]]]; try reflexivity.
  - split; [cbn; lra|]. split; [|split].
    + intros t. cbn [damping demo_cfg]. apply Rinv_0_lt_compat. pose proof (pos_INR t). lra.
    + intros beta t E. injection E as <-. lra.
    + cbn. lia.
  - split; cbn; lia.
  - intros a. cbn. lra.
  - intros d i a I N. cbn [re im demo_batch]. destruct a as [|[|[|a]]]; [exfalso; apply N; cbn; auto|exfalso; apply N; cbn; auto| |lia]. split; reflexivity.
Qed.
(** one parameter, two samples with scores 0 and 2: Fisher = 1, lambda = 1, g = 3, delta = 3/2 *)
Definition tiny_cfg : settings :=
  {| damping := fun _ => 1; max_cond := None; start := fun _ => 1; robust := Standard; spring := None; march := None; var_mode := false; eps := / 10; clip := None; chunks := None |}.
Definition tiny_batch : batch := {| devices := 1; n_local := 2; n_params := 1; re := fun _ i _ => 2 * INR i; im := fun _ _ _ => 0; cplx := false; active := None |}.
Example C41_demo : fst (update tiny_cfg tiny_batch (fun _ => 3) init) 0%nat = 3 / 2.
Proof.
  assert (U : usable tiny_cfg) by (split; [cbn; lra|split; [intros; cbn; lra|split; [discriminate|exact I]]]).
  assert (NE : nonempty tiny_batch) by (split; cbn; lia).
  assert (F : fisher tiny_batch (rescale tiny_cfg tiny_batch) 0 0 = 1) by (unfold fisher, deviation, over_samples, samples, rescale; cbn; field).
  symmetry. apply (C41_standard tiny_cfg tiny_batch (fun _ => 3) init U NE (fun _ => Rle_0_1) eq_refl eq_refl eq_refl eq_refl ltac:(cbn; lra) (fun _ => 3 / 2)); [|cbn; lia].
  intros a H. replace a with 0%nat by (cbn in H; lia). cbn [n_params tiny_batch sum]. rewrite F. unfold lambda, delta. cbn. field.
Qed.
Print Assumptions C41_robust.
Print Assumptions C41_standard.
Print Assumptions C41_modes.
Print Assumptions C41_descent.
Print Assumptions C41_history.
Print Assumptions C41_lift.
Print Assumptions C41_prune.
Print Assumptions C41_leaf_selection.
Print Assumptions C42_gram.
Print Assumptions C43_constrained.
Print Assumptions C43_step.
