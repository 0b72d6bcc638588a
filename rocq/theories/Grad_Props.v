(** C29: the energy gradient of LossAndGrad. *)
From Coq Require Import Reals List Bool Arith String Lra Lia Permutation.
From Verif Require Import Common Est_Model Est_Props Clip_Props.
Import ListNotations.
Open Scope R_scope.
Open Scope list_scope.
Local Notation length := List.length.

(** *** Specification.  [ws]: the walkers.  Averages over all of them; the covariance of
    the log-derivative O with the local energy E, conj(O - <O>) (E - <E>), real part. *)
Definition avg (f : sample -> R) (ws : list sample) : R := rsum (map f ws) / INR (length ws).
Definition reO (s : sample) := re (dlog s).
Definition imO (s : sample) := im (dlog s).
Definition reE (s : sample) := re (energy s).
Definition imE (s : sample) := im (energy s).
Definition real_covariance (ws : list sample) : R :=
  avg (fun s => (reO s - avg reO ws) * (reE s - avg reE ws) + (imO s - avg imO ws) * (imE s - avg imE ws)) ws.

(** Every device holds the same positive number of walkers. *)
Definition uniform {A} (n : nat) (layout : list (list A)) : Prop :=
  (0 < n)%nat /\ layout <> [] /\ Forall (fun shard => length shard = n) layout.

(** *** The clipping function of one part *)
Definition cf (m : clip_method) (scale : R) (all : list R) (x : R) : R :=
  match window m scale all with Some w => clip (fst w) (snd w) x | None => x end.

Lemma valid_to_nv L : valid (List.concat (to_nv L)) = List.concat L.
Proof. unfold to_nv. rewrite valid_concat, map_map. f_equal. rewrite <- map_id. apply map_ext. intros. apply valid_map_Some. Qed.

Lemma clip_parts_eq m scale L : clip_parts m scale L = map (map (cf m scale (List.concat L))) L.
Proof.
  unfold clip_parts, clip_layout, to_nv. rewrite !map_map. apply map_ext. intros shard.
  rewrite C30_same_window_everywhere. fold (to_nv L). rewrite valid_to_nv. unfold cf.
  destruct (window m scale (List.concat L)) as [w|].
  - rewrite map_map. cbn [option_map]. rewrite <- (map_map (clip (fst w) (snd w)) Some). apply valid_map_Some.
  - rewrite map_id. apply valid_map_Some.
Qed.

Lemma combine_maps {A B C} (f : A -> B) (g : A -> C) l : combine (map f l) (map g l) = map (fun x => (f x, g x)) l.
Proof. induction l; simpl; auto. congruence. Qed.
Lemma combine_self {A C} (g : A -> C) l : combine l (map g l) = map (fun x => (x, g x)) l.
Proof. rewrite <- (map_id l) at 1. apply combine_maps. Qed.

(** The energy of a walker after clipping, part by part. *)
Definition cE (m : clip_method) (scale : R) (ws : list sample) (s : sample) : cplx :=
  mkC (cf m scale (map reE ws) (reE s)) (cf m scale (map imE ws) (imE s)).

Lemma clipped_eq m scale L : clipped m scale L = map (map (cE m scale (List.concat L))) L.
Proof.
  unfold clipped. rewrite !clip_parts_eq, !map_map, combine_maps, map_map. apply map_ext. intros shard.
  cbn [fst snd]. rewrite !map_map. unfold zip_c. rewrite combine_maps, map_map. apply map_ext. intros s.
  unfold cE. cbn [fst snd]. rewrite !concat_map. reflexivity.
Qed.

Lemma dev_mean_concat n (f : sample -> R) L : uniform n L -> dev_mean (map (map f) L) = avg f (List.concat L).
Proof.
  intros (Hn & NE & F). unfold dev_mean. rewrite (mean_of_means n); auto.
  - rewrite <- concat_map. unfold rmean, avg. rewrite map_length. auto.
  - apply Forall_map. eapply Forall_impl; [|exact F]. simpl. intros. rewrite map_length. auto.
Qed.

(** What one step contributes. *)
Definition step_of (m : clip_method) (scale : R) (ws : list sample) : step_stats :=
  {| s_gl := avg (fun s => reO s * re (cE m scale ws s) + imO s * im (cE m scale ws s)) ws;
     s_loss := mkC (avg reE ws) (avg imE ws);
     s_clipped := mkC (avg (fun s => re (cE m scale ws s)) ws) (avg (fun s => im (cE m scale ws s)) ws);
     s_grad := mkC (avg reO ws) (avg imO ws) |}.
Lemma reduce_step_eq n m scale L : uniform n L -> reduce_step m scale L = step_of m scale (List.concat L).
Proof.
  intros U. unfold reduce_step, step_of. rewrite clipped_eq. cbv zeta.
  f_equal; try (f_equal; rewrite ?map_map; apply (dev_mean_concat n); auto).
  - rewrite combine_self, map_map. cbn [fst snd].
    rewrite <- (dev_mean_concat n) by auto. f_equal. apply map_ext. intros shard.
    rewrite combine_self, map_map. reflexivity.
  - f_equal; rewrite map_map; [rewrite <- (dev_mean_concat n (fun s => re (cE m scale (List.concat L) s))) by auto
                              |rewrite <- (dev_mean_concat n (fun s => im (cE m scale (List.concat L) s))) by auto];
    f_equal; apply map_ext; intros; rewrite map_map; auto.
Qed.

(** ** C29.  The report of a step depends on the walkers only, not on how they are spread
    over devices. *)
Lemma avg_perm f a b : Permutation a b -> avg f a = avg f b.
Proof. intros P. unfold avg. rewrite (Permutation_length P). f_equal. apply rsum_perm. apply Permutation_map. auto. Qed.
Lemma avg_ext f g ws : (forall s, In s ws -> f s = g s) -> avg f ws = avg g ws.
Proof. intros H. unfold avg. f_equal. f_equal. apply map_ext_in. auto. Qed.
Lemma window_perm m scale a b : Permutation a b -> window m scale a = window m scale b.
Proof.
  intros P. destruct m; simpl; auto.
  - unfold iqr_window. rewrite !(quantile_perm _ _ _ P). auto.
  - unfold mad_window, median. rewrite !(quantile_perm _ _ _ P).
    rewrite (quantile_perm 2 _ _ (Permutation_map (fun x => Rabs (x - quantile4 2 b)) P)). auto.
Qed.
Theorem C29_layout_independent : forall m scale n1 n2 l1 l2, uniform n1 l1 -> uniform n2 l2 ->
  Permutation (List.concat l1) (List.concat l2) ->
  reduce_step m scale l1 = reduce_step m scale l2.
Proof.
  intros m scale n1 n2 l1 l2 U1 U2 P. rewrite (reduce_step_eq n1), (reduce_step_eq n2) by auto.
  assert (K : forall s, cE m scale (List.concat l1) s = cE m scale (List.concat l2) s).
  { intros s. unfold cE, cf.
    rewrite (window_perm m scale _ _ (Permutation_map reE P)), (window_perm m scale _ _ (Permutation_map imE P)). auto. }
  unfold step_of. rewrite !(avg_perm _ _ _ P).
  f_equal; [|f_equal]; apply avg_ext; intros s _; rewrite !K; auto.
Qed.

(** *** Averages *)
Lemma avg_plus f g ws : avg (fun s => f s + g s) ws = avg f ws + avg g ws.
Proof. unfold avg. rewrite rsum_plus. lra. Qed.
Lemma avg_scal c f ws : avg (fun s => c * f s) ws = c * avg f ws.
Proof. unfold avg. rewrite rsum_scal. lra. Qed.
Lemma avg_const c ws : ws <> [] -> avg (fun _ => c) ws = c.
Proof. intros H. unfold avg. rewrite rsum_const. field. apply INR_len; auto. Qed.
Lemma cov_part f g ws : ws <> [] ->
  avg (fun s => (f s - avg f ws) * (g s - avg g ws)) ws = avg (fun s => f s * g s) ws - avg f ws * avg g ws.
Proof.
  intros H. set (a := avg f ws). set (b := avg g ws).
  rewrite (avg_ext _ (fun s => f s * g s + (- b * f s + (- a * g s + a * b)))).
  - rewrite !avg_plus, !avg_scal, avg_const by auto. fold a. fold b. lra.
  - intros. ring.
Qed.

(** Means over the steps of means over the walkers. *)
Lemma avg_steps N (f : sample -> R) (steps : list (list sample)) : (0 < N)%nat -> Forall (fun ws => length ws = N) steps ->
  rmean (map (avg f) steps) = avg f (List.concat steps).
Proof.
  intros HN F. transitivity (rmean (map rmean (map (map f) steps))).
  - f_equal. rewrite map_map. apply map_ext. intros. unfold avg, rmean. rewrite map_length. auto.
  - rewrite (mean_of_means N); auto.
    + rewrite <- concat_map. unfold rmean, avg. rewrite map_length. auto.
    + apply Forall_map. eapply Forall_impl; [|exact F]. simpl. intros. rewrite map_length. auto.
Qed.
Lemma cE_noclip scale ws s : cE NoClip scale ws s = energy s.
Proof. unfold cE, cf. simpl. unfold reE, imE. destruct (energy s); auto. Qed.

(** All walkers of all steps. *)
Definition pooled (steps : list (list (list sample))) : list sample := List.concat (map (@List.concat sample) steps).

(** What is computed without clipping, for any number of steps on any number of devices:
    twice the real covariance, plus a term of the imaginary parts of the averages. *)
Theorem C29_gradient_exact : forall scale n d steps, (0 < d)%nat -> steps <> [] ->
  Forall (fun layout => uniform n layout /\ length layout = d) steps ->
  finalize_grad (map (reduce_step NoClip scale) steps) =
    2 * real_covariance (pooled steps) + 4 * (avg imE (pooled steps) * avg imO (pooled steps)) /\
  finalize_loss (map (reduce_step NoClip scale) steps) = mkC (avg reE (pooled steps)) (avg imE (pooled steps)).
Proof.
  intros scale n d steps Hd NE F.
  assert (E : map (reduce_step NoClip scale) steps = map (step_of NoClip scale) (map (@List.concat sample) steps)).
  { rewrite map_map. apply map_ext_in. intros L HL. rewrite Forall_forall in F. destruct (F _ HL) as [U _].
    apply (reduce_step_eq n); auto. }
  rewrite E. clear E. set (wss := map (@List.concat sample) steps).
  assert (Hn : (0 < n)%nat). { destruct steps; [congruence|]. inversion F as [|? ? [[K _] _]]; auto. }
  assert (FW : Forall (fun ws => length ws = (d * n)%nat) wss).
  { unfold wss. apply Forall_map. eapply Forall_impl; [|exact F]. intros L [(_ & _ & U) D].
    rewrite (concat_length_eq n), D by auto. auto. }
  assert (HN : (0 < d * n)%nat) by nia.
  assert (PE : pooled steps <> []).
  { unfold pooled. fold wss. destruct wss as [|ws wss'] eqn:W; [unfold wss in W; destruct steps; simpl in W; congruence|].
    inversion FW as [|? ? L]; subst. simpl. destruct ws; simpl in *; [lia|discriminate]. }
  assert (G : forall f, rmean (map (avg f) wss) = avg f (pooled steps)).
  { intros f. unfold pooled. apply (avg_steps (d * n)); auto. }
  assert (GL : rmean (map s_gl (map (step_of NoClip scale) wss)) =
               avg (fun s => reO s * reE s) (pooled steps) + avg (fun s => imO s * imE s) (pooled steps)).
  { rewrite <- avg_plus, <- G. f_equal. rewrite map_map. apply map_ext. intros ws. apply avg_ext.
    intros s _. rewrite !cE_noclip. auto. }
  assert (CE : forall f h, (forall ws, f (step_of NoClip scale ws) = avg h ws) ->
               rmean (map f (map (step_of NoClip scale) wss)) = avg h (pooled steps)).
  { intros f h Hf. rewrite <- G. f_equal. rewrite map_map. apply map_ext. auto. }
  split.
  - unfold finalize_grad, cmean. rewrite GL. cbv zeta. cbn [re im]. rewrite !(map_map _ re), !(map_map _ im).
    rewrite (CE (fun x => re (s_clipped x)) reE), (CE (fun x => im (s_clipped x)) imE),
            (CE (fun x => re (s_grad x)) reO), (CE (fun x => im (s_grad x)) imO); auto;
    try (intros ws; cbn; apply avg_ext; intros s _; rewrite cE_noclip; auto).
    unfold real_covariance. rewrite avg_plus, !cov_part by auto. ring.
  - unfold finalize_loss, cmean. rewrite !(map_map _ re), !(map_map _ im).
    rewrite (CE (fun x => re (s_loss x)) reE), (CE (fun x => im (s_loss x)) imE); auto.
Qed.

(** With clipping: the same of the clipped energies, clipped step by step to the window of
    all the walkers of that step (C30). *)
Definition clip_sample (m : clip_method) (scale : R) (ws : list sample) (s : sample) : sample :=
  {| dlog := dlog s;
     energy := mkC (cf m scale (map reE ws) (reE s)) (cf m scale (map imE ws) (imE s)) |}.
Theorem C29_clipped_gradient : forall m scale steps,
  Forall (fun layout => exists n, uniform n layout) steps ->
  finalize_grad (map (reduce_step m scale) steps) =
  finalize_grad (map (reduce_step NoClip scale)
    (map (fun layout => map (map (clip_sample m scale (List.concat layout))) layout) steps)).
Proof.
  intros m scale steps F.
  assert (G : map (fun x => (s_gl x, s_clipped x, s_grad x)) (map (reduce_step m scale) steps) =
              map (fun x => (s_gl x, s_clipped x, s_grad x)) (map (reduce_step NoClip scale)
    (map (fun layout => map (map (clip_sample m scale (List.concat layout))) layout) steps))).
  { rewrite !map_map. apply map_ext_in. intros L HL. rewrite Forall_forall in F. destruct (F _ HL) as [n U].
    assert (U' : uniform n (map (map (clip_sample m scale (List.concat L))) L)).
    { destruct U as (U1 & U2 & U3). split; auto. split; [destruct L; [congruence|discriminate]|].
      apply Forall_map. eapply Forall_impl; [|exact U3]. simpl. intros. rewrite map_length. auto. }
    rewrite (reduce_step_eq n m scale L U), (reduce_step_eq n NoClip scale _ U'). rewrite <- concat_map.
    set (ws := List.concat L).
    assert (A : forall f, avg f (map (clip_sample m scale ws) ws) = avg (fun s => f (clip_sample m scale ws s)) ws).
    { intros f. unfold avg. rewrite map_map, map_length. auto. }
    unfold step_of. cbn [s_gl s_clipped s_grad]. rewrite !A.
    apply (f_equal2 pair); [apply (f_equal2 pair); [|apply (f_equal2 mkC)]|reflexivity];
      apply avg_ext; intros s _; rewrite !cE_noclip; reflexivity. }
  assert (H : forall a b, map (fun x => (s_gl x, s_clipped x, s_grad x)) a = map (fun x => (s_gl x, s_clipped x, s_grad x)) b ->
                          finalize_grad a = finalize_grad b).
  { intros a b E. unfold finalize_grad.
    assert (E1 : map s_gl a = map s_gl b).
    { apply (f_equal (map (fun t => fst (fst t)))) in E. rewrite !map_map in E. exact E. }
    assert (E2 : map s_clipped a = map s_clipped b).
    { apply (f_equal (map (fun t => snd (fst t)))) in E. rewrite !map_map in E. exact E. }
    assert (E3 : map s_grad a = map s_grad b).
    { apply (f_equal (map (fun t => snd t))) in E. rewrite !map_map in E. exact E. }
    rewrite E1, E2, E3. reflexivity. }
  apply H. exact G.
Qed.

(** For real wavefunctions, or whenever the average energy is real, it is the gradient. *)
Theorem C29_gradient_is_covariance_partial : forall scale n d steps, (0 < d)%nat -> steps <> [] ->
  Forall (fun layout => uniform n layout /\ length layout = d) steps ->
  avg imE (pooled steps) = 0 \/ avg imO (pooled steps) = 0 ->
  finalize_grad (map (reduce_step NoClip scale) steps) = 2 * real_covariance (pooled steps).
Proof.
  intros scale n d steps Hd NE F Z. destruct (C29_gradient_exact scale n d steps Hd NE F) as [-> _].
  destruct Z as [->| ->]; lra.
Qed.

(** Otherwise it is not: loss_grad.py line 126 multiplies the averages without conjugating
    (two walkers, E = i and i, O = i and i: no covariance at all, gradient 4). *)
Definition wI : sample := {| dlog := mkC 0 1; energy := mkC 0 1 |}.
Theorem C29_complex_refuted : exists scale steps, uniform 2 (hd [] steps) /\ length steps = 1%nat /\
  real_covariance (pooled steps) = 0 /\
  finalize_grad (map (reduce_step NoClip scale) steps) = 4.
Proof.
  exists 1, [[[wI; wI]]].
  assert (U : uniform 2 [[wI; wI]]).
  { split; [lia|]. split; [discriminate|]. constructor; auto. }
  assert (C : real_covariance (pooled [[[wI; wI]]]) = 0).
  { unfold real_covariance, pooled, avg. simpl. unfold reO, imO, reE, imE, wI. simpl. lra. }
  split; [exact U|]. split; auto. split; auto.
  destruct (C29_gradient_exact 1 2 1 [[[wI; wI]]]) as [-> _]; [lia|discriminate|constructor; auto|].
  rewrite C. unfold pooled, avg. simpl. unfold imO, imE, wI. simpl. lra.
Qed.

(** A real constant added to every energy changes nothing, whatever the clipping. *)
Definition shift (c : R) (s : sample) : sample := {| dlog := dlog s; energy := mkC (re (energy s) + c) (im (energy s)) |}.
Definition shift_im (c : R) (s : sample) : sample := {| dlog := dlog s; energy := mkC (re (energy s)) (im (energy s) + c) |}.

Lemma cf_shift m scale all x c : all <> [] -> cf m scale (map (fun y => y + c) all) (x + c) = cf m scale all x + c.
Proof.
  intros NE. unfold cf. destruct (window m scale all) as [w|] eqn:W.
  - rewrite (window_shift _ _ _ c _ NE W). cbn [fst snd]. apply clip_shift.
  - destruct m; simpl in *; try discriminate. auto.
Qed.
Lemma avg_shift c f ws : avg f (map (shift c) ws) = avg (fun s => f (shift c s)) ws.
Proof. unfold avg. rewrite map_map, map_length. auto. Qed.
Lemma cE_shift m scale c ws s : ws <> [] ->
  cE m scale (map (shift c) ws) (shift c s) = mkC (re (cE m scale ws s) + c) (im (cE m scale ws s)).
Proof.
  intros NE. unfold cE. cbn [re im]. f_equal.
  - rewrite map_map. rewrite <- cf_shift by (destruct ws; [congruence|discriminate]). rewrite map_map. reflexivity.
  - rewrite map_map. reflexivity.
Qed.

Theorem C29_shift_invariant : forall m scale c steps, steps <> [] ->
  Forall (fun layout => exists n, uniform n layout) steps ->
  finalize_grad (map (reduce_step m scale) (map (map (map (shift c))) steps)) =
  finalize_grad (map (reduce_step m scale) steps).
Proof.
  intros m scale c steps NE F.
  set (A := map (reduce_step m scale) steps).
  assert (E : map (reduce_step m scale) (map (map (map (shift c))) steps) =
    map (fun x => {| s_gl := s_gl x + c * re (s_grad x); s_loss := mkC (re (s_loss x) + c) (im (s_loss x));
                     s_clipped := mkC (re (s_clipped x) + c) (im (s_clipped x)); s_grad := s_grad x |}) A).
  { unfold A. rewrite !map_map. apply map_ext_in. intros L HL. rewrite Forall_forall in F. destruct (F _ HL) as [n U].
    assert (U' : uniform n (map (map (shift c)) L)).
    { destruct U as (U1 & U2 & U3). split; auto. split; [destruct L; [congruence|discriminate]|].
      apply Forall_map. eapply Forall_impl; [|exact U3]. simpl. intros. rewrite map_length. auto. }
    rewrite (reduce_step_eq n m scale L U), (reduce_step_eq n m scale _ U'). rewrite <- concat_map.
    set (ws := List.concat L).
    assert (NW : ws <> []).
    { unfold ws. destruct U as (U1 & U2 & U3). destruct L as [|sh L]; [congruence|]. inversion U3; subst. simpl.
      destruct sh; simpl in *; [lia|discriminate]. }
    unfold step_of. cbn [s_gl s_loss s_clipped s_grad re im]. rewrite !avg_shift. f_equal.
    - rewrite <- avg_scal, <- avg_plus. apply avg_ext. intros s _. rewrite cE_shift by auto. cbn [re im].
      unfold reO, imO, shift. cbn. ring.
    - f_equal. transitivity (avg reE ws + avg (fun _ => c) ws); [|rewrite avg_const; auto].
      rewrite <- avg_plus. apply avg_ext. reflexivity.
    - f_equal.
      + transitivity (avg (fun s => re (cE m scale ws s)) ws + avg (fun _ => c) ws); [|rewrite avg_const; auto].
        rewrite <- avg_plus. apply avg_ext. intros s _. rewrite cE_shift by auto. reflexivity.
      + apply avg_ext. intros s _. rewrite cE_shift by auto. reflexivity. }
  rewrite E. assert (NA : A <> []) by (unfold A; destruct steps; [congruence|discriminate]). clearbody A. clear E F NE steps.
  unfold finalize_grad, cmean. cbv zeta. cbn [re im]. rewrite !map_map. cbn [s_gl s_clipped s_grad re im].
  pose proof (INR_len A NA) as N. unfold rmean. rewrite !map_length, !rsum_plus.
  rewrite rsum_scal, rsum_const. field. exact N.
Qed.

(** An imaginary one does change it, by 4 c times the average imaginary derivative. *)
Theorem C29_imaginary_shift_refuted : exists scale c steps, uniform 2 (hd [] steps) /\ length steps = 1%nat /\
  finalize_grad (map (reduce_step NoClip scale) (map (map (map (shift_im c))) steps)) <>
  finalize_grad (map (reduce_step NoClip scale) steps).
Proof.
  exists 1, 1, [[[wI; wI]]].
  assert (U : forall a b : sample, uniform 2 [[a; b]]).
  { intros. split; [lia|]. split; [discriminate|]. constructor; auto. }
  split; [apply U|]. split; auto. cbn [map].
  destruct (C29_gradient_exact 1 2 1 [[[wI; wI]]]) as [E1 _]; [lia|discriminate|constructor; auto|].
  destruct (C29_gradient_exact 1 2 1 [[[shift_im 1 wI; shift_im 1 wI]]]) as [E2 _]; [lia|discriminate|constructor; auto|].
  cbn [map] in *. rewrite E1, E2. unfold real_covariance, pooled, avg. simpl.
  unfold reO, imO, reE, imE, shift_im, wI. simpl. lra.
Qed.

(** A concrete case: two devices of two walkers, real; gradient 2 cov = 2 * 5/4. *)
Definition wk (o e : R) : sample := {| dlog := mkC o 0; energy := mkC e 0 |}.
Example C29_example :
  uniform 2 [[wk 0 0; wk 1 1]; [wk 2 2; wk 3 3]] /\
  finalize_grad (map (reduce_step NoClip 5) [[[wk 0 0; wk 1 1]; [wk 2 2; wk 3 3]]]) = 5 / 2.
Proof.
  assert (U : uniform 2 [[wk 0 0; wk 1 1]; [wk 2 2; wk 3 3]]).
  { split; [lia|]. split; [discriminate|]. constructor; [|constructor]; auto. }
  split; auto.
  rewrite (C29_gradient_is_covariance_partial 5 2 2); [|lia|discriminate|constructor; auto|right].
  - unfold real_covariance, pooled, avg. simpl. unfold reO, imO, reE, imE, wk. simpl. lra.
  - unfold pooled, avg. simpl. unfold imO, wk. simpl. lra.
Qed.

Print Assumptions C29_gradient_exact.
Print Assumptions C29_shift_invariant.
