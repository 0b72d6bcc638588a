(** C26, C28: reduction over walkers and devices; total energy. *)
From Coq Require Import Reals List Bool Arith String Lra Lia Permutation.
From Verif Require Import Common Common_Proofs Est_Model.
Import ListNotations.
Open Scope R_scope.
Open Scope list_scope.
Local Notation length := List.length.

(** *** Sums and means *)
Lemma rsum_app a b : rsum (a ++ b) = rsum a + rsum b.
Proof. induction a; simpl; [lra|]. rewrite IHa. lra. Qed.
Lemma rsum_perm a b : Permutation a b -> rsum a = rsum b.
Proof. induction 1; simpl; lra. Qed.
Lemma rsum_plus {A} (f g : A -> R) l : rsum (map (fun x => f x + g x) l) = rsum (map f l) + rsum (map g l).
Proof. induction l; simpl; [lra|]. rewrite IHl. lra. Qed.
Lemma rsum_scal {A} (c : R) (f : A -> R) l : rsum (map (fun x => c * f x) l) = c * rsum (map f l).
Proof. induction l; simpl; [lra|]. rewrite IHl. lra. Qed.
Lemma rsum_const {A} (c : R) (l : list A) : rsum (map (fun _ => c) l) = INR (length l) * c.
Proof. induction l; [simpl; lra|]. rewrite map_cons. cbn [rsum fold_right]. fold (rsum (map (fun _ => c) l)).
  rewrite IHl. cbn [length]. rewrite S_INR. lra. Qed.
Lemma rsum_div (c : R) l : rsum (map (fun x => x / c) l) = rsum l / c.
Proof. induction l; simpl; [lra|]. rewrite IHl. lra. Qed.
Lemma INR_pos n : (0 < n)%nat -> 0 < INR n.
Proof. intros. apply lt_0_INR. auto. Qed.
Lemma INR_len {A} (l : list A) : l <> [] -> INR (length l) <> 0.
Proof. intros H. apply not_0_INR. destruct l; [congruence|simpl; lia]. Qed.

Lemma concat_length_eq {A} (m : nat) (L : list (list A)) : Forall (fun d => length d = m) L ->
  length (List.concat L) = (length L * m)%nat.
Proof. induction 1; simpl; auto. rewrite app_length. lia. Qed.

(** The mean of the means of equally many values is the mean of all. *)
Lemma mean_of_means (m : nat) (L : list (list R)) : (0 < m)%nat -> Forall (fun d => length d = m) L ->
  rmean (map rmean L) = rmean (List.concat L).
Proof.
  intros Hm H. unfold rmean at 1 3. rewrite map_length, (concat_length_eq m) by auto.
  assert (E : rsum (map rmean L) = rsum (List.concat L) / INR m).
  { clear - H Hm. pose proof (INR_pos m Hm). induction H as [|d L Hd H IH]; simpl; [lra|].
    fold (rsum (map rmean L)). rewrite IH, rsum_app. unfold rmean. rewrite Hd. field. lra. }
  rewrite E. pose proof (INR_pos m Hm).
  destruct L as [|d L]; [simpl; unfold Rdiv; rewrite !Rmult_0_l; reflexivity|]. rewrite mult_INR.
  field. split; apply Rgt_not_eq; apply INR_pos; simpl; lia.
Qed.

Lemma valid_app a b : valid (a ++ b) = valid a ++ valid b.
Proof. apply flat_map_app. Qed.
Lemma valid_concat L : valid (List.concat L) = List.concat (map valid L).
Proof. induction L; simpl; auto. rewrite valid_app, IHL. auto. Qed.
Lemma valid_map_Some l : valid (map Some l) = l.
Proof. induction l; simpl; auto. congruence. Qed.
Lemma valid_option_map f l : valid (map (option_map f) l) = map f (valid l).
Proof. induction l as [|[x|] l IH]; simpl; auto. congruence. Qed.

Lemma pmean_some (l : list R) : pmean (map Some l) = Some (rmean l).
Proof.
  unfold pmean. rewrite valid_map_Some. replace (forallb _ (map Some l)) with true; auto.
  symmetry. induction l; simpl; auto.
Qed.
Lemma pmean_none l : In None l -> pmean l = None.
Proof.
  intros H. unfold pmean. replace (forallb _ l) with false; auto. symmetry.
  apply not_true_iff_false. intros E. rewrite forallb_forall in E. specialize (E _ H). discriminate.
Qed.

Lemma nanmean_layout (m : nat) (L : list (list nv)) : (0 < m)%nat -> Forall (fun d => length (valid d) = m) L ->
  map nanmean L = map Some (map rmean (map valid L)).
Proof.
  intros Hm. induction 1 as [|d L Hd H IH]; simpl; auto. rewrite IH. f_equal. unfold nanmean.
  destruct (valid d); auto. simpl in Hd. lia.
Qed.

(** *** Specification: mean and variance of the numbers of a batch. *)
Definition batch_mean (l : list R) : R := rsum l / INR (length l).
Definition batch_var (l : list R) : R := rsum (map (fun x => (x - batch_mean l) * (x - batch_mean l)) l) / INR (length l).

Lemma var_alt l : l <> [] -> rmean (map (fun x => x * x) l) - rmean l * rmean l = batch_var l.
Proof.
  intros H. pose proof (INR_len l H) as N. unfold batch_var, rmean, batch_mean. rewrite map_length.
  set (n := INR (length l)) in *. set (mu := rsum l / n).
  assert (E : rsum (map (fun x => (x - mu) * (x - mu)) l) =
              rsum (map (fun x => x * x) l) - 2 * mu * rsum l + n * (mu * mu)).
  { unfold n. clear H N. clearbody mu. induction l as [|x l IH]; [simpl; lra|].
    rewrite !map_cons. cbn [rsum fold_right]. fold (rsum (map (fun x => (x - mu) * (x - mu)) l)).
    fold (rsum (map (fun x => x * x) l)). fold (rsum l).
    rewrite IH. cbn [length]. rewrite S_INR. ring. }
  rewrite E. unfold mu. field. exact N.
Qed.

(** ** C26.  If every device holds the same positive number of valid walkers, mean and
    variance are those of the whole batch. *)
Theorem C26_batch_statistics : forall (m : nat) (layout : list (list nv)), (0 < m)%nat -> layout <> [] ->
  Forall (fun shard => length (valid shard) = m) layout ->
  reduce_mean layout = Some (batch_mean (valid (List.concat layout))) /\
  reduce_var layout = Some (batch_var (valid (List.concat layout))).
Proof.
  intros m L Hm NE H.
  assert (HV : Forall (fun d => length d = m) (map valid L)).
  { apply Forall_map. exact H. }
  assert (M : reduce_mean L = Some (rmean (valid (List.concat L)))).
  { unfold reduce_mean. rewrite (nanmean_layout m), pmean_some by auto.
    rewrite (mean_of_means m) by auto. rewrite valid_concat. auto. }
  split; [exact M|]. unfold reduce_var. rewrite M. cbn [option_map].
  assert (S : pmean (map (fun shard => nanmean (map (option_map (fun x => x * x)) shard)) L) =
              Some (rmean (map (fun x => x * x) (valid (List.concat L))))).
  { rewrite <- (map_map (map (option_map (fun x => x * x))) nanmean).
    rewrite (nanmean_layout m), pmean_some; auto.
    - f_equal. rewrite (mean_of_means m); auto.
      + f_equal. rewrite <- valid_concat, <- concat_map, valid_option_map. auto.
      + apply Forall_map. apply Forall_map. eapply Forall_impl; [|exact H]. simpl. intros a Ha.
        rewrite valid_option_map, map_length. auto.
    - apply Forall_map. eapply Forall_impl; [|exact H]. simpl. intros a Ha.
      rewrite valid_option_map, map_length. auto. }
  rewrite S. cbn [nmap2]. f_equal. apply var_alt.
  destruct L as [|d L]; [congruence|]. inversion H as [|? ? Hd]; subst. simpl. rewrite valid_app.
  destruct (valid d); simpl in *; [lia|discriminate].
Qed.

(** Two layouts of the same walkers report the same. *)
Theorem C26_layout_independent : forall m1 m2 l1 l2, (0 < m1)%nat -> (0 < m2)%nat -> l1 <> [] -> l2 <> [] ->
  Forall (fun shard => length (valid shard) = m1) l1 -> Forall (fun shard => length (valid shard) = m2) l2 ->
  Permutation (List.concat l1) (List.concat l2) ->
  reduce_mean l1 = reduce_mean l2 /\ reduce_var l1 = reduce_var l2.
Proof.
  intros m1 m2 l1 l2 H1 H2 N1 N2 F1 F2 P.
  destruct (C26_batch_statistics m1 l1 H1 N1 F1) as [-> ->].
  destruct (C26_batch_statistics m2 l2 H2 N2 F2) as [-> ->].
  assert (PV : Permutation (valid (List.concat l1)) (valid (List.concat l2))).
  { unfold valid. apply Permutation_flat_map. exact P. }
  unfold batch_var, batch_mean. rewrite (rsum_perm _ _ PV), (Permutation_length PV).
  split; auto. f_equal. f_equal. apply rsum_perm. apply Permutation_map. auto.
Qed.

(** The reported variance is never negative. *)
Theorem C26_variance_nonnegative : forall l, 0 <= batch_var l.
Proof.
  intros l. unfold batch_var. destruct l as [|x l]; [simpl; unfold Rdiv; rewrite Rmult_0_l; lra|].
  apply Rmult_le_pos.
  - generalize (batch_mean (x :: l)) as mu. generalize (x :: l) as q. clear. intros q mu.
    induction q; simpl; [lra|]. apply Rplus_le_le_0_compat; [apply Rle_0_sqr|exact IHq].
  - left. apply Rinv_0_lt_compat. apply INR_pos. simpl. lia.
Qed.

(** With NaN walkers the devices are still weighted equally, so the layout matters: one
    walker of device 1 is NaN, the mean of the three others is 2, the report says 7/4. *)
Theorem C26_nan_layout_refuted :
  ~ (forall (n : nat) (layout : list (list nv)), (0 < n)%nat -> layout <> [] ->
       Forall (fun shard => length shard = n) layout -> valid (List.concat layout) <> [] ->
       reduce_mean layout = Some (batch_mean (valid (List.concat layout)))).
Proof.
  intros H. specialize (H 2%nat [[None; Some 1]; [Some 2; Some 3]]).
  assert (E : Some ((1 / 1 + ((2 + (3 + 0)) / (1 + 1))) / (1 + 1)) = Some ((1 + (2 + (3 + 0))) / (1 + 1 + 1))).
  { specialize (H ltac:(lia)). unfold reduce_mean, batch_mean in H. cbn in H.
    etransitivity; [|etransitivity; [apply H|]].
    - unfold pmean. cbn. unfold rmean. cbn. f_equal. unfold Rdiv. lra.
    - discriminate.
    - repeat constructor.
    - discriminate.
    - f_equal. }
  injection E as E. lra.
Qed.
(** A device whose walkers are all NaN makes the report NaN, although others are fine. *)
Theorem C26_nan_device_spoils : forall layout shard, In shard layout -> valid shard = [] ->
  reduce_mean layout = None /\ reduce_var layout = None.
Proof.
  intros L d Hin Hv.
  assert (M : reduce_mean L = None).
  { apply pmean_none. apply in_map_iff. exists d. split; auto. unfold nanmean. rewrite Hv. auto. }
  split; auto. unfold reduce_var. rewrite M. simpl. destruct (pmean _); auto.
Qed.

(** The record: for each quantity k the mean under k and the variance under k_var. *)
Theorem C26_reduced_keys : forall stats k layout, NoDup (map fst stats) ->
  (forall k1 k2, In k1 (map fst stats) -> In k2 (map fst stats) -> k1 <> (k2 ++ "_var")%string) ->
  dict_get stats k = Some layout ->
  dict_get (mean_reduce stats true) k = Some (reduce_mean layout) /\
  dict_get (mean_reduce stats true) (k ++ "_var")%string = Some (reduce_var layout) /\
  dict_get (mean_reduce stats false) k = Some (reduce_mean layout).
Proof.
  intros stats k L ND NV G. unfold mean_reduce.
  assert (Inj : forall a b, (a ++ "_var")%string = (b ++ "_var")%string -> a = b).
  { intros a. induction a as [|x a IH]; intros b E; destruct b as [|y b]; auto.
    - exfalso. apply (f_equal String.length) in E. simpl in E. rewrite length_app_s in E. simpl in E. lia.
    - exfalso. apply (f_equal String.length) in E. simpl in E. rewrite length_app_s in E. simpl in E. lia.
    - simpl in E. inversion E; subst. f_equal. auto. }
  assert (M : forall s, dict_get s k = Some L -> dict_get (map (fun kv => (fst kv, reduce_mean (snd kv))) s) k = Some (reduce_mean L)).
  { induction s as [|[a b] s IH]; simpl; [discriminate|]. destruct (String.eqb_spec k a); auto. intros E; inversion E; auto. }
  assert (Vr : forall s, dict_get s k = Some L ->
    dict_get (map (fun kv => ((fst kv ++ "_var")%string, reduce_var (snd kv))) s) (k ++ "_var")%string = Some (reduce_var L)).
  { induction s as [|[a b] s IH]; simpl; [discriminate|].
    destruct (String.eqb_spec k a).
    - subst. rewrite String.eqb_refl. intros E; inversion E; auto.
    - destruct (String.eqb_spec (k ++ "_var") (a ++ "_var")); auto. apply Inj in e. contradiction. }
  assert (NDv : NoDup (map fst (map (fun kv : string * list (list nv) => ((fst kv ++ "_var")%string, reduce_var (snd kv))) stats))).
  { rewrite map_map. simpl. rewrite <- (map_map fst (fun k => (k ++ "_var")%string)).
    apply FinFun.Injective_map_NoDup; auto. }
  rewrite !dict_get_update by auto.
  rewrite (Vr stats G). split; [|split; auto].
  replace (dict_get (map (fun kv : string * list (list nv) => ((fst kv ++ "_var")%string, reduce_var (snd kv))) stats) k) with (@None nv); auto.
  symmetry. apply dict_get_None. rewrite map_map. simpl. intros Hin. apply in_map_iff in Hin as ([a b] & E & Hin).
  simpl in E. apply (NV k a); auto.
  - apply in_map_iff. exists (k, L). split; auto. apply dict_get_In. auto.
  - apply in_map_iff. exists (a, b). auto.
Qed.

Example C26_example :
  reduce_mean [[Some 1; None]; [Some 3; None]] = Some 2 /\ reduce_var [[Some 1; None]; [Some 3; None]] = Some 1.
Proof.
  destruct (C26_batch_statistics 1 [[Some 1; None]; [Some 3; None]]) as [E1 E2]; try lia; try discriminate.
  - repeat constructor.
  - rewrite E1, E2. unfold batch_var, batch_mean. cbn. split; f_equal; lra.
Qed.

(** ** C28: the total energy *)
Definition is_energy (kv : string * wstat) : bool := String.prefix "energy:" (fst kv).
Definition energy_value (kv : string * wstat) : R := match snd kv with Scalar x => x | NonScalar => 0 end.

Lemma add_up_acc stats keys : forall t, add_up stats keys t = match add_up stats keys 0 with Ok q => Ok (q + t) | Raise e => Raise e end.
Proof.
  assert (F : forall ks a c, add_up stats ks (a + c) = match add_up stats ks a with Ok q => Ok (q + c) | Raise e => Raise e end).
  { induction ks as [|k ks IH]; simpl; intros a c; auto.
    destruct (dict_get stats k) as [[x|]|]; auto. replace (a + c + x) with (a + x + c) by lra. apply IH. }
  intros t. replace t with (0 + t) at 1 by lra. apply F.
Qed.

(** Without configured components: the sum of all entries called energy:..., each once,
    provided they are scalars; anything else in the dictionary is ignored. *)
Theorem C28_total_is_sum_of_all_components : forall prev, NoDup (map fst prev) ->
  (forall kv, In kv prev -> is_energy kv = true -> snd kv <> NonScalar) ->
  total_energy None prev = Ok (rsum (map energy_value (filter is_energy prev))).
Proof.
  intros prev ND HS. unfold total_energy.
  assert (K : forall sub, (forall kv, In kv sub -> In kv prev) ->
    add_up prev (filter (String.prefix "energy:") (map fst sub)) 0 = Ok (rsum (map energy_value (filter is_energy sub)))).
  { induction sub as [|[k w] sub IH]; intros Hs; auto.
    cbn [map filter fst]. unfold is_energy at 1. cbn [fst].
    destruct (String.prefix "energy:" k) eqn:P; [|apply IH; intros; apply Hs; right; auto].
    assert (G : dict_get prev k = Some w) by (apply In_dict_get; auto; apply Hs; left; auto).
    cbn [add_up]. rewrite G. destruct w as [x|]; [|exfalso; eapply HS; [apply Hs; left; reflexivity|exact P|reflexivity]].
    rewrite add_up_acc, IH by (intros; apply Hs; right; auto). cbn [map rsum fold_right energy_value snd].
    f_equal. fold (rsum (map energy_value (filter is_energy sub))). lra. }
  apply K. auto.
Qed.

(** With configured components: the sum of exactly those. *)
Theorem C28_total_of_components : forall ks prev vs,
  map (dict_get prev) ks = map (fun x => Some (Scalar x)) vs ->
  total_energy (Some ks) prev = Ok (rsum vs).
Proof.
  intros ks prev. unfold total_energy. induction ks as [|k ks IH]; intros [|v vs] H; try discriminate; auto.
  simpl in H. inversion H as [[G E]]. cbn [add_up]. rewrite G, add_up_acc, (IH vs E). cbn [rsum fold_right].
  f_equal. fold (rsum vs). lra.
Qed.

(** A component that is missing or not a scalar is an error, never a silent omission. *)
Theorem C28_bad_component_raises : forall ks prev k, In k ks ->
  (dict_get prev k = None \/ dict_get prev k = Some NonScalar) ->
  exists e, total_energy (Some ks) prev = Raise e /\ (e = KeyError \/ e = ValueError).
Proof.
  intros ks prev k Hin Hb. unfold total_energy. generalize 0 as t. induction ks as [|k0 ks IH]; intros t; [contradiction|].
  cbn [add_up]. destruct Hin as [->|Hin].
  - destruct Hb as [->| ->]; eauto.
  - destruct (dict_get prev k0) as [[x|]|]; eauto.
Qed.

Example C28_example :
  total_energy None [("energy:kinetic", Scalar 1); ("spin", NonScalar); ("energy:ewald", Scalar 2)]%string = Ok (0 + 1 + 2).
Proof. reflexivity. Qed.

Print Assumptions C26_batch_statistics.
Print Assumptions C28_total_is_sum_of_all_components.
