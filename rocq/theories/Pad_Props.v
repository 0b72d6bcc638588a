(** C61: padding does not affect the walkers; C62: aggregates over hosts. *)
From Coq Require Import List Arith ZArith Bool QArith Lia.
From Verif Require Import Pad_Model.
Import ListNotations.
Open Scope nat_scope.

(** ** C61 *)
Lemma one_digit k : k < 10 -> 0 < k -> target_one_digit k = k.
Proof. intros H P. do 10 (destruct k as [|k]; [try lia; vm_compute; reflexivity|]). lia. Qed.
Lemma log10_fuel_ok : forall fuel x, x <= fuel -> 0 < x -> 10 ^ log10_fuel fuel x <= x < 10 ^ S (log10_fuel fuel x).
Proof.
  induction fuel as [|f IH]; intros x H P; [lia|]. cbn [log10_fuel]. destruct (Nat.ltb_spec x 10) as [L|L]; [cbn; lia|].
  pose proof (Nat.div_mod x 10 ltac:(lia)) as D. pose proof (Nat.mod_upper_bound x 10 ltac:(lia)) as M. assert (Q : 0 < x / 10) by (apply Nat.div_str_pos; lia). assert (B : x / 10 <= f) by (assert (x / 10 < x) by (apply Nat.div_lt; lia); lia).
  specialize (IH (x / 10) B Q). change (10 ^ S (log10_fuel f (x / 10))) with (10 * 10 ^ log10_fuel f (x / 10)) in *. change (10 ^ S (S (log10_fuel f (x / 10)))) with (10 * (10 * 10 ^ log10_fuel f (x / 10))). lia.
Qed.
Lemma log10_ok x : 0 < x -> 10 ^ log10 x <= x < 10 ^ S (log10 x). Proof. intros P. apply log10_fuel_ok; auto. Qed.
(** whatever number of digits [S d] the logarithm reports *)
Lemma target_any_digit least d : least < target_num least (S d) <= least + 10 ^ d.
Proof.
  cbn [target_num]. assert (NZ : 10 ^ d <> 0) by (apply Nat.pow_nonzero; lia). pose proof (Nat.div_mod least (10 ^ d) NZ) as D. pose proof (Nat.mod_upper_bound least (10 ^ d) NZ) as M. set (q := least / 10 ^ d) in *. set (p := 10 ^ d) in *. nia.
Qed.
Lemma target_bounds least : 0 < least -> least <= target_num least (log10 least) /\ 10 * target_num least (log10 least) <= 11 * least.
Proof.
  intros P. destruct (log10_ok least P) as [L U]. destruct (log10 least) as [|d] eqn:E.
  - cbn [target_num]. cbn in U. rewrite one_digit by lia. lia.
  - pose proof (target_any_digit least d) as [A B]. change (10 ^ S d) with (10 * 10 ^ d) in L. lia.
Qed.
(** There is at least one padding element, the padded number of walkers is divisible by the
    number of devices, and no device gets more than 11/10 of what it needs. *)
Theorem C61_pad : forall n nd, 0 < nd -> 0 < get_to_pad_num n nd /\ (n + get_to_pad_num n nd) mod nd = 0 /\ 10 * ((n + get_to_pad_num n nd) / nd) <= 11 * (n / nd + 1).
Proof.
  intros n nd H. unfold get_to_pad_num. cbv zeta. set (least := n / nd + 1). pose proof (target_bounds least ltac:(unfold least; lia)) as [A B]. set (t := target_num least (log10 least)) in *.
  pose proof (Nat.div_mod n nd ltac:(lia)) as D. pose proof (Nat.mod_upper_bound n nd ltac:(lia)) as M. assert (G : n < least * nd) by (unfold least; nia). assert (G2 : n < t * nd) by nia.
  replace (n + (t * nd - n)) with (t * nd) by lia. rewrite Nat.mod_mul, Nat.div_mul by lia. lia.
Qed.
Example pad_examples : map (fun n => get_to_pad_num n 4) [0; 3; 4; 39; 40; 1000; 2047; 4096] = [4; 1; 4; 5; 8; 40; 33; 304]. Proof. vm_compute. reflexivity. Qed.

Section Step.
Variables (A V K : Type) (zero : A) (split : nat -> list K) (walker : A -> K -> V) (nan_to_num : V -> V) (times : V -> nat -> V).
Hypothesis split_length : forall n, length (split n) = n.
Hypothesis times_one : forall v, times v 1 = v.
Lemma chunks_concat {T} : forall rows cols (l : list T), length l = rows * cols -> concat (chunks rows cols l) = l.
Proof.
  induction rows as [|r IH]; intros cols l H; cbn in *; [destruct l; [reflexivity|discriminate]|]. rewrite IH; [apply firstn_skipn|]. rewrite skipn_length. lia.
Qed.
Lemma combine_app {T U} : forall (a a' : list T) (b b' : list U), length a = length b -> combine (a ++ a') (b ++ b') = combine a b ++ combine a' b'.
Proof. induction a as [|x a IH]; intros a' [|y b] b' H; try discriminate; cbn; [reflexivity|]. f_equal. apply IH. cbn in H. lia. Qed.
Lemma chunked {T U X Y} (g : T * U * X -> Y) : forall rows cols (a : list T) (b : list U) (c : list X), length a = rows * cols -> length b = rows * cols -> length c = rows * cols ->
  concat (map (fun d => map g (combine (combine (fst (fst d)) (snd (fst d))) (snd d))) (combine (combine (chunks rows cols a) (chunks rows cols b)) (chunks rows cols c))) = map g (combine (combine a b) c).
Proof.
  induction rows as [|r IH]; intros cols a b c HA HB HC; cbn [chunks combine map concat fst snd]; [destruct a; [reflexivity|discriminate]|].
  rewrite IH by (rewrite skipn_length; cbn in *; lia). rewrite <- map_app. f_equal. cbn [Nat.mul] in *.
  rewrite <- (firstn_skipn cols a) at 3. rewrite <- (firstn_skipn cols b) at 3. rewrite <- (firstn_skipn cols c) at 3.
  rewrite combine_app by (rewrite !firstn_length; lia). rewrite combine_app; [reflexivity|]. rewrite combine_length, !firstn_length. lia.
Qed.
Lemma repeats_mask {T} : forall (l1 l2 : list T) p, repeats (l1 ++ l2) (repeat 1 (length l1) ++ repeat 0 p) = l1.
Proof.
  induction l1 as [|x l1 IH]; intros l2 p; cbn [app length repeat repeats]; [|f_equal; apply IH]. revert p. induction l2 as [|y l2 IH]; intros [|p]; cbn; auto.
Qed.
Lemma repeats_mask' {T} (l1 l2 : list T) n p : length l1 = n -> repeats (l1 ++ l2) (repeat 1 n ++ repeat 0 p) = l1.
Proof. intros <-. apply repeats_mask. Qed.
Lemma reshape_some {T} nd (l : list T) : 0 < nd -> length l mod nd = 0 -> reshape nd l = Some (chunks nd (length l / nd) l) /\ length l = nd * (length l / nd).
Proof. intros P H. unfold reshape. rewrite H. split; [reflexivity|]. apply Nat.div_exact; [lia|exact H]. Qed.
(** the key of each walker *)
Definition keys_for (total n : nat) : list K := firstn n (split total).
Definition total_of (nd : nat) (do_padding : bool) (n : nat) : nat := n + (if do_padding then get_to_pad_num n nd else 0).
Lemma run_value nd do_padding (walkers : list A) : 0 < nd -> total_of nd do_padding (length walkers) mod nd = 0 ->
  run A V K zero split walker nan_to_num times nd do_padding walkers =
  Some (map (fun x => nan_to_num (walker (fst x) (snd x))) (combine walkers (keys_for (total_of nd do_padding (length walkers)) (length walkers)))).
Proof.
  intros P H. unfold run, total_of in *. cbv zeta. set (n := length walkers) in *. set (pad := if do_padding then get_to_pad_num n nd else 0) in *.
  assert (L1 : length (repeat 1 n ++ repeat 0 pad) = n + pad) by (rewrite app_length, !repeat_length; reflexivity).
  assert (L2 : length (walkers ++ repeat zero pad) = n + pad) by (rewrite app_length, repeat_length; reflexivity).
  destruct (reshape_some nd (repeat 1 n ++ repeat 0 pad) P ltac:(rewrite L1; exact H)) as [R1 M1]. destruct (reshape_some nd (walkers ++ repeat zero pad) P ltac:(rewrite L2; exact H)) as [R2 M2]. destruct (reshape_some nd (split (n + pad)) P ltac:(rewrite split_length; exact H)) as [R3 M3].
  rewrite R1, R2, R3. rewrite L1 in *. rewrite L2 in *. rewrite split_length in *.
  rewrite chunked by (rewrite ?L1, ?L2, ?split_length; exact M1). rewrite chunks_concat by (rewrite L1; exact M1).
  assert (VAL : map (one_walker A V K walker nan_to_num times) (combine (combine (repeat 1 n ++ repeat 0 pad) (walkers ++ repeat zero pad)) (split (n + pad))) =
    map (fun x => nan_to_num (walker (fst x) (snd x))) (combine walkers (keys_for (n + pad) n)) ++ map (one_walker A V K walker nan_to_num times) (combine (combine (repeat 0 pad) (repeat zero pad)) (skipn n (split (n + pad))))).
  { rewrite <- (firstn_skipn n (split (n + pad))) at 1. rewrite combine_app by (rewrite repeat_length; reflexivity). rewrite combine_app by (rewrite combine_length, repeat_length, firstn_length, split_length; fold n; lia). rewrite map_app. f_equal.
    unfold keys_for. assert (LK : length (firstn n (split (n + pad))) = n) by (rewrite firstn_length, split_length; lia). revert LK. generalize (firstn n (split (n + pad))) as ks. unfold n. clear -times_one. induction walkers as [|x ws IH]; intros [|k ks] E; try discriminate; [reflexivity|].
    cbn [length repeat combine map fst snd]. unfold one_walker at 1. cbn [fst snd]. rewrite times_one. f_equal. apply IH. cbn in E. lia. }
  rewrite VAL. f_equal. assert (LV : length (map (fun x => nan_to_num (walker (fst x) (snd x))) (combine walkers (keys_for (n + pad) n))) = n).
  { unfold keys_for. rewrite map_length, combine_length, firstn_length, split_length. fold n. lia. }
  destruct do_padding; [apply (repeats_mask' _ _ n pad LV)|]. unfold pad. cbn [repeat combine map]. apply app_nil_r.
Qed.
(** With padding the call never fails and returns exactly one result per walker, in order: the
    walker function applied to that walker with its own key.  Dummy walkers leave no trace. *)
Theorem C61_padded : forall nd walkers, 0 < nd ->
  run A V K zero split walker nan_to_num times nd true walkers = Some (map (fun x => nan_to_num (walker (fst x) (snd x))) (combine walkers (keys_for (length walkers + get_to_pad_num (length walkers) nd) (length walkers)))).
Proof. intros nd ws P. apply (run_value nd true ws P). unfold total_of. apply C61_pad, P. Qed.
(** Without padding (fixed population) it works exactly when the devices divide the walkers. *)
Theorem C61_unpadded : forall nd walkers, 0 < nd ->
  run A V K zero split walker nan_to_num times nd false walkers =
  if Nat.eqb (length walkers mod nd) 0 then Some (map (fun x => nan_to_num (walker (fst x) (snd x))) (combine walkers (split (length walkers)))) else None.
Proof.
  intros nd ws P. destruct (Nat.eqb_spec (length ws mod nd) 0) as [Z|Z].
  - rewrite (run_value nd false ws P); unfold total_of; rewrite Nat.add_0_r; [|exact Z]. unfold keys_for. rewrite firstn_all2; [reflexivity|]. rewrite split_length. lia.
  - unfold run, reshape. cbn [repeat]. rewrite !app_nil_r, repeat_length. destruct (Nat.eqb_spec (length ws mod nd) 0); [contradiction|reflexivity].
Qed.
End Step.
Example run_example : run nat nat nat 0 (seq 0) (fun a k => a * 100 + k) (fun v => v) Nat.mul 2 true [7; 8; 9] = Some [700; 801; 902]. Proof. vm_compute. reflexivity. Qed.
Example run_refused : run nat nat nat 0 (seq 0) (fun a k => a * 100 + k) (fun v => v) Nat.mul 2 false [7; 8; 9] = None. Proof. reflexivity. Qed.

(** ** C62 *)
Open Scope Q_scope.
Lemma qsum_repeat q n : qsum (repeat q n) == nQ n * q.
Proof.
  induction n as [|n IH]; [cbn; unfold nQ; ring|]. change (qsum (repeat q (S n))) with (q + qsum (repeat q n)). rewrite IH. unfold nQ. rewrite Nat2Z.inj_succ, <- Z.add_1_l, inject_Z_plus. ring.
Qed.
Lemma nQ_pos n : (0 < n)%nat -> ~ nQ n == 0.
Proof. intros H E. unfold nQ, inject_Z, Qeq in E. cbn [Qnum Qden] in E. lia. Qed.
Lemma psum_same f d hosts : (forall h, In h hosts -> fst h = d) -> psum f hosts == nQ d * qsum (map f hosts).
Proof.
  intros H. induction hosts as [|h hosts IH]; [cbn; ring|]. unfold psum in *. cbn [map]. change (qsum (qsum (repeat (f h) (fst h)) :: map (fun h0 => qsum (repeat (f h0) (fst h0))) hosts)) with (qsum (repeat (f h) (fst h)) + qsum (map (fun h0 => qsum (repeat (f h0) (fst h0))) hosts)).
  rewrite IH by (intros g G; apply H; right; exact G). rewrite qsum_repeat, (H h (or_introl eq_refl)). change (qsum (f h :: map f hosts)) with (f h + qsum (map f hosts)). ring.
Qed.
Lemma qsum_app a b : qsum (a ++ b) == qsum a + qsum b.
Proof. induction a as [|x a IH]; [change (qsum b == 0 + qsum b); ring|]. change (qsum ((x :: a) ++ b)) with (x + qsum (a ++ b)). rewrite IH. change (qsum (x :: a)) with (x + qsum a). ring. Qed.
Lemma qsum_concat hosts : qsum (map (fun h : host => qsum (snd h)) hosts) == qsum (flat_map snd hosts).
Proof. induction hosts as [|h hosts IH]; [reflexivity|]. cbn [map flat_map]. rewrite qsum_app, <- IH. reflexivity. Qed.
(** On hosts with equally many devices, agg_sum is the sum over all values of all hosts. *)
Theorem C62_sum : forall here hosts, (0 < here)%nat -> (forall h, In h hosts -> fst h = here) -> agg_sum here hosts == qsum (flat_map snd hosts).
Proof. intros here hosts P H. unfold agg_sum. rewrite (psum_same _ here hosts H), qsum_concat. field. apply nQ_pos, P. Qed.
Lemma devices_same d hosts : (forall h, In h hosts -> fst h = d) -> devices hosts = (length hosts * d)%nat.
Proof. intros H. unfold devices. induction hosts as [|h hosts IH]; [reflexivity|]. cbn [map length]. change (list_sum (fst h :: map fst hosts)) with (fst h + list_sum (map fst hosts))%nat. rewrite IH by (intros g G; apply H; right; exact G). rewrite (H h (or_introl eq_refl)). lia. Qed.
Lemma nQ_mul a b : nQ (a * b) == nQ a * nQ b. Proof. unfold nQ. rewrite Nat2Z.inj_mul, inject_Z_mult. reflexivity. Qed.
(** If also every host holds equally many values, the unweighted agg_mean is the mean of all values. *)
Theorem C62_mean_partial : forall d n hosts, (0 < d)%nat -> (0 < n)%nat -> hosts <> [] -> (forall h, In h hosts -> fst h = d /\ length (snd h) = n) -> agg_mean hosts == mean (flat_map snd hosts).
Proof.
  intros d n hosts D N NE H. unfold agg_mean. rewrite (psum_same _ d hosts) by (intros h I; apply H, I). rewrite (devices_same d hosts) by (intros h I; apply H, I).
  assert (L : length (flat_map snd hosts) = (length hosts * n)%nat). { clear NE. induction hosts as [|h hosts IH]; [reflexivity|]. cbn [flat_map length]. rewrite app_length, IH by (intros g G; apply H; right; exact G). destruct (H h (or_introl eq_refl)) as [_ ->]. lia. }
  assert (M : qsum (map (fun h : host => mean (snd h)) hosts) == qsum (flat_map snd hosts) / nQ n).
  { rewrite <- qsum_concat. clear NE L. induction hosts as [|h hosts IH]; [cbn; field; apply nQ_pos, N|]. cbn [map]. change (qsum (mean (snd h) :: map (fun h0 : host => mean (snd h0)) hosts)) with (mean (snd h) + qsum (map (fun h0 : host => mean (snd h0)) hosts)). rewrite IH by (intros g G; apply H; right; exact G).
    unfold mean at 1. destruct (H h (or_introl eq_refl)) as [_ ->]. change (qsum (qsum (snd h) :: map (fun h0 : host => qsum (snd h0)) hosts)) with (qsum (snd h) + qsum (map (fun h0 : host => qsum (snd h0)) hosts)). field. apply nQ_pos, N. }
  rewrite M. unfold mean. rewrite L, !nQ_mul. assert (0 < length hosts)%nat by (destruct hosts; [contradiction|cbn; lia]). field. repeat split; apply nQ_pos; assumption.
Qed.
(** Full statement, false: after branching the hosts hold different numbers of walkers and the
    reported acceptance ratio is not the mean over the walkers. *)
Theorem C62_mean_refuted : exists hosts : list host, (forall h, In h hosts -> fst h = 1%nat /\ snd h <> []) /\ ~ agg_mean hosts == mean (flat_map snd hosts).
Proof. exists [(1%nat, [1]); (1%nat, [0; 0; 0])]. split; [intros h [<-|[<-|[]]]; split; cbn; congruence|]. vm_compute. discriminate. Qed.
(** Equal device counts are needed for the sum. *)
Theorem C62_devices_refuted : exists here (hosts : list host), In (here, [1]) hosts /\ (forall h, In h hosts -> (0 < fst h)%nat) /\ ~ agg_sum here hosts == qsum (flat_map snd hosts).
Proof. exists 1%nat, [(1%nat, [1]); (2%nat, [1])]. split; [left; reflexivity|]. split; [intros h [<-|[<-|[]]]; cbn; lia|]. vm_compute. discriminate. Qed.
(** The hosts agree that an iteration succeeded exactly when it did on all of them. *)
Theorem C62_success : forall here flags, (0 < here)%nat -> (forall f, In f flags -> fst f = here) -> success_over_all_hosts here flags (length flags) = forallb snd flags.
Proof.
  intros here flags P H. unfold success_over_all_hosts. set (hosts := map (fun f : nat * bool => (fst f, [if snd f then 1 else 0]) : host) flags).
  assert (HS : forall h, In h hosts -> fst h = here) by (intros h I; apply in_map_iff in I as [f [<- F]]; apply H, F).
  pose proof (C62_sum here hosts P HS) as S. assert (C : qsum (flat_map snd hosts) == nQ (length (filter snd flags))).
  { unfold hosts. clear. induction flags as [|[d b] fl IH]; [reflexivity|]. cbn [map flat_map snd fst app filter]. change (qsum ((if b then 1 else 0) :: flat_map snd (map (fun f : nat * bool => (fst f, [if snd f then 1 else 0]) : host) fl))) with ((if b then 1 else 0) + qsum (flat_map snd (map (fun f : nat * bool => (fst f, [if snd f then 1 else 0]) : host) fl))). rewrite IH. destruct b; cbn [length]; [|ring]. unfold nQ. rewrite Nat2Z.inj_succ, <- Z.add_1_l, inject_Z_plus. reflexivity. }
  rewrite C in S. set (k := length (filter snd flags)) in *.
  assert (T : trunc (agg_sum here hosts + (1 # 100000)) = Z.of_nat k).
  { set (q := agg_sum here hosts) in *. clearbody q. destruct q as [a b]. unfold Qeq, nQ, inject_Z in S. cbn in S. rewrite Z.mul_1_r in S. subst a. unfold trunc, Qplus. cbn [Qnum Qden]. rewrite Z.quot_div_nonneg by lia.
    symmetry. apply Z.div_unique with (r := Zpos b); [left; lia|]. lia. }
  rewrite T. assert (E : (k = length flags) <-> forallb snd flags = true).
  { unfold k. clear. induction flags as [|[d b] fl IH]; [cbn; tauto|]. cbn [filter snd forallb]. assert (length (filter snd fl) <= length fl)%nat by (clear; induction fl as [|x fl IH]; cbn; [lia|destruct (snd x); cbn; lia]). destruct b; cbn [length andb]; [rewrite <- IH; lia|]. split; [lia|discriminate]. }
  destruct (forallb snd flags); [apply Z.eqb_eq; rewrite (proj2 E eq_refl); reflexivity|]. apply Z.eqb_neq. intros Z. apply Nat2Z.inj in Z. apply E in Z. discriminate.
Qed.
Example success_example : success_over_all_hosts 8 [(8%nat, true); (8%nat, true)] 2 = true /\ success_over_all_hosts 8 [(8%nat, true); (8%nat, false)] 2 = false. Proof. split; vm_compute; reflexivity. Qed.
Print Assumptions C61_pad. Print Assumptions C61_padded. Print Assumptions C61_unpadded. Print Assumptions C62_sum. Print Assumptions C62_mean_partial. Print Assumptions C62_mean_refuted. Print Assumptions C62_devices_refuted. Print Assumptions C62_success.
