(** C45: branching with a variable population. *)
From Coq Require Import Reals List Arith Bool Lra Lia Permutation Sorted.
From Coquelicot Require Import Coquelicot.
From Verif Require Import Lin Branch_Model Branch_Spec Branch_Lemmas.
Import ListNotations.
Open Scope R_scope.

Section Vary.
Variables (w : list R) (min max : R).
Local Notation n := (length w).
Local Notation st := ((nat -> R) * (nat -> nat))%type.
Definition E (a : nat -> R) (s : st) : R := sum n (fun i => INR (snd s i) * fst s i * a i).
Lemma E_put a (f : nat -> R) (rep : nat -> nat) k r v : (k < n)%nat -> (r < n)%nat -> k <> r ->
  E a (put f k v, put rep r 0%nat) = E a (f, rep) + INR (rep k) * (v - f k) * a k - INR (rep r) * f r * a r.
Proof.
  intros K R N. unfold E. cbn [fst snd].
  rewrite (sum_ext n _ (put (put (fun i => INR (rep i) * f i * a i) k (INR (rep k) * v * a k)) r 0)).
  - rewrite !sum_put by auto. rewrite (put_other _ k r) by auto. ring.
  - intros i I. unfold put. destruct (Nat.eqb_spec i r) as [->|NR]; [cbn; ring|]. destruct (Nat.eqb_spec i k) as [->|NK]; reflexivity.
Qed.
Definition fresh (ps : list (nat * nat)) (s : st) : Prop := forall i, In i (ends ps) -> fst s i = at_ w i /\ snd s i = 1%nat.
Lemma fresh_step p ps s u : NoDup (ends (p :: ps)) -> fresh (p :: ps) s -> fresh ps (merge_pair w min u p s).
Proof.
  intros D F i I. rewrite ends_cons in D. inversion_clear D as [|? ? D1 D2]. inversion_clear D2 as [|? ? D3 D4].
  assert (N1 : i <> fst p) by (intros ->; apply D1; right; auto). assert (N2 : i <> snd p) by (intros ->; auto).
  unfold merge_pair. destruct (rltb _ min); [|apply F; right; right; auto].
  destruct (rltb u _); cbn [fst snd]; rewrite !put_other by auto; apply F; right; right; auto.
Qed.
(** a merge moves the weight of the removed walker to the kept one *)
Lemma E_merge a p ps s u : NoDup (ends (p :: ps)) -> (forall i, In i (ends (p :: ps)) -> (i < n)%nat) -> fresh (p :: ps) s ->
  E a (merge_pair w min u p s) = E a s + if rltb (at_ w (fst p)) min then (if rltb u (threshold w p) then at_ w (snd p) * (a (fst p) - a (snd p)) else at_ w (fst p) * (a (snd p) - a (fst p))) else 0.
Proof.
  intros D B F. rewrite ends_cons in D. inversion_clear D as [|? ? D1 D2].
  assert (N : fst p <> snd p) by (intros X; apply D1; left; auto).
  assert (B1 : (fst p < n)%nat) by (apply B; left; auto). assert (B2 : (snd p < n)%nat) by (apply B; right; left; auto).
  destruct (F (fst p)) as [F1 G1]; [left; auto|]. destruct (F (snd p)) as [F2 G2]; [right; left; auto|].
  unfold merge_pair, threshold. destruct (rltb (at_ w (fst p)) min); [|ring]. destruct s as [f rep]. cbn [fst snd] in *.
  destruct (rltb u _); rewrite E_put by auto; rewrite G1, G2, F1, F2; cbn [INR]; ring.
Qed.
Lemma total_merge : forall ps us s, NoDup (ends ps) -> (forall i, In i (ends ps) -> (i < n)%nat) -> fresh ps s -> E (fun _ => 1) (merge_all w min ps us s) = E (fun _ => 1) s.
Proof.
  induction ps as [|p ps IH]; intros us s D B F; cbn [merge_all]; [reflexivity|]. rewrite IH.
  - rewrite (E_merge _ p ps) by auto. destruct (rltb (at_ w (fst p)) min), (rltb (hd 0 us) (threshold w p)); ring.
  - rewrite ends_cons in D. inversion_clear D as [|? ? _ D2]. inversion_clear D2. auto.
  - intros i I. apply B. right. right. auto.
  - apply fresh_step; auto.
Qed.
Lemma threshold_range p : 0 < at_ w (fst p) -> 0 < at_ w (snd p) -> 0 <= threshold w p <= 1.
Proof.
  intros A B. unfold threshold. split; [apply Rlt_le, Rdiv_lt_0_compat; lra|]. apply Rmult_le_reg_r with (at_ w (fst p) + at_ w (snd p)); [lra|]. unfold Rdiv. rewrite Rmult_assoc, Rinv_l, Rmult_1_r, Rmult_1_l by lra. lra.
Qed.
Lemma threshold_fair p x y : 0 < at_ w (fst p) -> 0 < at_ w (snd p) ->
  threshold w p * (at_ w (snd p) * (x - y)) + (1 - threshold w p) * (at_ w (fst p) * (y - x)) = 0.
Proof. intros A B. unfold threshold. field. lra. Qed.
Lemma mean_merge a : (forall i, (i < n)%nat -> 0 < at_ w i) -> forall ps k s, (length ps <= k)%nat -> NoDup (ends ps) -> (forall i, In i (ends ps) -> (i < n)%nat) -> fresh ps s ->
  mean k (fun us => E a (merge_all w min ps us s)) (E a s).
Proof.
  intros P. induction ps as [|p ps IH]; intros k s L D B F; cbn [merge_all]; [apply mean_const|].
  destruct k as [|k]; [cbn in L; lia|].
  assert (D' : NoDup (ends ps)) by (rewrite ends_cons in D; inversion_clear D as [|? ? _ D2]; inversion_clear D2; auto).
  assert (B' : forall i, In i (ends ps) -> (i < n)%nat) by (intros i I; apply B; right; right; auto).
  assert (P1 : 0 < at_ w (fst p)) by (apply P, B; left; auto). assert (P2 : 0 < at_ w (snd p)) by (apply P, B; right; left; auto).
  set (c := if rltb (at_ w (fst p)) min then 1 else 0).
  replace (E a s) with (threshold w p * (E a s + c * (at_ w (snd p) * (a (fst p) - a (snd p)))) + (1 - threshold w p) * (E a s + c * (at_ w (fst p) * (a (snd p) - a (fst p))))).
  2:{ transitivity (E a s + c * (threshold w p * (at_ w (snd p) * (a (fst p) - a (snd p))) + (1 - threshold w p) * (at_ w (fst p) * (a (snd p) - a (fst p))))); [ring|]. rewrite threshold_fair by auto. ring. }
  apply mean_step; [apply threshold_range; auto| |].
  - intros u U. cbn [hd tl]. replace (E a s + c * (at_ w (snd p) * (a (fst p) - a (snd p)))) with (E a (merge_pair w min u p s)); [apply IH; auto; [cbn in L; lia|apply fresh_step; auto]|].
    rewrite (E_merge a p ps) by auto. assert (T : rltb u (threshold w p) = true) by (apply rltb_true; lra). rewrite T. unfold c. destruct (rltb _ min); ring.
  - intros u U. cbn [hd tl]. replace (E a s + c * (at_ w (fst p) * (a (snd p) - a (fst p)))) with (E a (merge_pair w min u p s)); [apply IH; auto; [cbn in L; lia|apply fresh_step; auto]|].
    rewrite (E_merge a p ps) by auto. assert (T : rltb u (threshold w p) = false) by (apply rltb_false; lra). rewrite T. unfold c. destruct (rltb _ min); ring.
Qed.
Lemma E_split a s : E a (split max s) = E a s.
Proof.
  unfold E, split. cbn [fst snd]. apply sum_ext. intros i _. destruct (rltb max (fst s i)).
  - rewrite mult_INR. change (INR (1 + 1)) with (1 + 1). field.
  - rewrite mult_INR. change (INR (1 + 0)) with 1. field.
Qed.
Definition start : st := (at_ w, fun _ => 1%nat).
Lemma E_start a : E a start = sum n (fun i => at_ w i * a i).
Proof. unfold E, start. cbn [fst snd INR]. apply sum_ext. intros. ring. Qed.
End Vary.

Definition pairs_of (w : list R) (m : nat) := pair_up (smallest w (2 * m)).
Lemma pairs_ok w m : (2 * m <= length w)%nat -> length (pairs_of w m) = m /\ NoDup (ends (pairs_of w m)) /\ (forall i, In i (ends (pairs_of w m)) -> (i < length w)%nat) /\ ends (pairs_of w m) = smallest w (2 * m).
Proof.
  intros H. destruct (ends_pair_up m (smallest w (2 * m)) (smallest_length w _ H)) as [E L]. unfold pairs_of. rewrite E. split; [auto|]. split; [apply smallest_ok|]. split; [apply smallest_ok|reflexivity].
Qed.
Lemma do_branch_eq w us m min max : do_branch w us m min max = split max (merge_all w min (pairs_of w m) us (start w)).
Proof. reflexivity. Qed.
Lemma some_pair {X Y} (a a' : X) (b b' : Y) : Some (a, b) = Some (a', b') -> a = a' /\ b = b'.
Proof. intros H. split; congruence. Qed.
Lemma nth_map_seq {T} (f : nat -> T) (d : T) n i : (i < n)%nat -> nth i (map f (seq 0 n)) d = f i.
Proof. intros H. rewrite (nth_indep _ d (f 0%nat)) by (rewrite map_length, seq_length; auto). rewrite map_nth, seq_nth by auto. reflexivity. Qed.

Theorem C45_vary_weight : forall {A} (d : A) w us arrays min max w' arrays', branch_vary d w us arrays min max = Some (w', arrays') -> total w' = total w.
Proof.
  intros A d w us arrays min max w' arrays' H. unfold branch_vary in H. set (m := round_merge_pairs _) in H.
  destruct (Nat.ltb_spec (length w) (2 * m)) as [|L]; [discriminate|]. apply some_pair in H; destruct H as [<- _]. destruct (pairs_ok w m L) as [PL [PD [PB _]]].
  assert (T : forall f l, total (map f l) = lsum f l) by (intros f l; induction l as [|x l IH]; [reflexivity|]; change (f x + total (map f l) = f x + lsum f l); rewrite IH; reflexivity).
  rewrite T, lsum_repeated, total_at. unfold do_branch. fold (pairs_of w m).
  transitivity (E w (fun _ => 1) (split max (merge_all w min (pairs_of w m) us (start w)))); [unfold E; apply sum_ext; intros; rewrite Rmult_1_r; reflexivity|].
  rewrite E_split, total_merge by (auto; intros i _; split; reflexivity). rewrite E_start. apply sum_ext. intros. ring.
Qed.
(** Weights and arrays stay aligned: output row j of everything comes from one walker. *)
Theorem C45_vary_aligned : forall {A} (d : A) w us arrays min max w' arrays', branch_vary d w us arrays min max = Some (w', arrays') ->
  exists src, length w' = length src /\ copies d (length w) src arrays arrays'.
Proof.
  intros A d w us arrays min max w' arrays' H. unfold branch_vary in H. set (m := round_merge_pairs _) in H.
  destruct (Nat.ltb_spec (length w) (2 * m)) as [|L]; [discriminate|]. apply some_pair in H; destruct H as [<- <-].
  eexists. split; [apply map_length|]. split; [apply repeated_lt|reflexivity].
Qed.
(** Merging and splitting are unbiased: the mean weighted sum of any observable is unchanged. *)
Definition observed (r : option (list R * list (list R))) : R := match r with Some (w', [a']) => weighted w' a' | _ => 0 end.
Theorem C45_vary_unbiased : forall w a min max, (forall x, In x w -> 0 < x) -> length a = length w -> (exists us, branch_vary 0 w us [a] min max <> None) ->
  mean (length w) (fun us => observed (branch_vary 0 w us [a] min max)) (weighted w a).
Proof.
  intros w a min max P LA [us0 NN]. unfold branch_vary in *. set (m := round_merge_pairs _) in *.
  destruct (Nat.ltb_spec (length w) (2 * m)) as [|L]; [destruct NN; reflexivity|]. clear NN us0. destruct (pairs_ok w m L) as [PL [PD [PB _]]].
  rewrite weighted_at by auto. rewrite <- (E_start w (fun i => nth i a 0)).
  apply mean_ext with (fun us => E w (fun i => nth i a 0) (merge_all w min (pairs_of w m) us (start w))).
  - intros us _. cbn [observed map]. rewrite weighted_map, lsum_repeated. rewrite do_branch_eq, <- (E_split w max). unfold E. apply sum_ext. intros. ring.
  - apply mean_merge; auto; [|lia|intros i _; split; reflexivity]. intros i I. apply P. apply nth_In. exact I.
Qed.

(** ** Which walkers are merged and split *)
Lemma place_sorted (key : nat -> R) i : forall l, StronglySorted (fun i j => key i <= key j) l -> StronglySorted (fun i j => key i <= key j) (place (fun i j => rleb (key i) (key j)) i l).
Proof.
  induction l as [|j l IH]; intros S; cbn [place]; [constructor; constructor|]. inversion_clear S as [|? ? S1 S2].
  destruct (rleb (key i) (key j)) eqn:B.
  - apply rleb_true in B. constructor; [constructor; auto|]. constructor; [auto|]. eapply Forall_impl; [|exact S2]. cbn. intros; lra.
  - constructor; [auto|]. assert (J : key j <= key i) by (destruct (Rle_dec (key i) (key j)) as [X|X]; [apply rleb_true in X; congruence|lra]).
    apply Forall_forall. intros x I. apply (Permutation_in _ (place_perm _ i l)) in I. destruct I as [<-|I]; [auto|]. rewrite Forall_forall in S2. auto.
Qed.
Lemma order_sorted (key : nat -> R) n : StronglySorted (fun i j => key i <= key j) (order (fun i j => rleb (key i) (key j)) n).
Proof. unfold order. induction (seq 0 n) as [|i l IH]; [constructor|]. apply place_sorted. exact IH. Qed.
Lemma sorted_filter (key : nat -> R) b : forall l, StronglySorted (fun i j => key i <= key j) l -> forall p, (p < length l)%nat -> (key (nth p l 0%nat) < b <-> (p < length (filter (fun i => rltb (key i) b) l))%nat).
Proof.
  induction l as [|x l IH]; intros S p P; [cbn in P; lia|]. inversion_clear S as [|? ? S1 S2]. cbn [filter]. destruct (rltb (key x) b) eqn:B.
  - apply rltb_true in B. destruct p as [|p]; [cbn; split; [lia|auto]|]. cbn [nth length] in *. rewrite IH by (auto; lia). lia.
  - apply rltb_false in B. assert (F : filter (fun i => rltb (key i) b) l = []).
    { clear - S2 B. induction l as [|y l IH]; [reflexivity|]. inversion_clear S2. cbn. assert (X : rltb (key y) b = false) by (apply rltb_false; lra). rewrite X. auto. }
    rewrite F. cbn [length]. split; [|lia]. intros H. destruct p as [|p]; cbn [nth] in H; [lra|]. rewrite Forall_forall in S2. specialize (S2 (nth p l 0%nat)). cbn [length] in P. assert (In (nth p l 0%nat) l) by (apply nth_In; lia). specialize (S2 H0). lra.
Qed.
Lemma filter_perm {T} (f : T -> bool) l l' : Permutation l l' -> length (filter f l) = length (filter f l').
Proof. induction 1; cbn; auto; repeat match goal with |- context [f ?x] => destruct (f x) end; cbn; congruence. Qed.
Lemma count_order (w : list R) b bf : length (filter (fun i => rltb (at_ w i) b) (order bf (length w))) = count (fun x => rltb x b) w.
Proof.
  rewrite (filter_perm _ _ _ (order_perm bf (length w))). unfold count. rewrite (list_map_nth w) at 2. generalize (seq 0 (length w)). induction l as [|x l IH]; [reflexivity|]. cbn [map filter]. unfold at_ in *. destruct (rltb (nth x w 0) b); cbn [length]; auto.
Qed.
Definition merges (w : list R) (min : R) (ps : list (nat * nat)) : nat := length (filter (fun p => rltb (at_ w (fst p)) min) ps).
Lemma pair_up_first : forall m l k, length l = (2 * m)%nat -> (k < m)%nat -> fst (nth k (pair_up l) (0, 0)%nat) = nth (2 * k) l 0%nat.
Proof.
  induction m as [|m IH]; intros l k L K; [lia|]. destruct l as [|a [|b l]]; cbn in L; try lia. destruct k as [|k]; [reflexivity|].
  cbn [pair_up nth]. rewrite IH by lia. replace (2 * S k)%nat with (S (S (2 * k))) by lia. reflexivity.
Qed.
Lemma firstn_nth {T} (d : T) : forall l k p, (p < k)%nat -> nth p (firstn k l) d = nth p l d.
Proof. induction l as [|x l IH]; intros [|k] [|p] H; cbn; auto; try lia. apply IH. lia. Qed.
Lemma filter_prefix {T} (d : T) (f : T -> bool) : forall l c, (forall k, (k < length l)%nat -> f (nth k l d) = true <-> (k < c)%nat) -> length (filter f l) = Nat.min (length l) c.
Proof.
  induction l as [|x l IH]; intros c H; [reflexivity|]. pose proof (H 0%nat ltac:(cbn; lia)) as H0. cbn [nth] in H0. cbn [filter].
  destruct (f x) eqn:X.
  - assert (0 < c)%nat by (apply H0; auto). destruct c as [|c]; [lia|]. cbn [length]. rewrite (IH c); [lia|]. intros k K. specialize (H (S k) ltac:(cbn; lia)). cbn [nth] in H. rewrite H. lia.
  - assert (~ (0 < c)%nat) by (rewrite <- H0; discriminate). assert (c = 0)%nat by lia. subst c. rewrite (IH 0%nat); [cbn; lia|]. intros k K. specialize (H (S k) ltac:(cbn; lia)). cbn [nth] in H. rewrite H. lia.
Qed.
Lemma merges_count w min m : (2 * m <= length w)%nat -> merges w min (pairs_of w m) = Nat.min m ((count (fun x => rltb x min) w + 1) / 2).
Proof.
  intros L. destruct (pairs_ok w m L) as [PL _]. unfold merges. set (c := count (fun x => rltb x min) w). rewrite (filter_prefix (0, 0)%nat _ _ ((c + 1) / 2)); [rewrite PL; reflexivity|].
  intros k K. rewrite PL in K. unfold pairs_of. rewrite (pair_up_first m) by (auto; apply smallest_length; auto).
  unfold smallest. rewrite firstn_nth by lia. rewrite rltb_true. rewrite (sorted_filter (at_ w) min _ (order_sorted (at_ w) (length w))) by (rewrite order_length; lia).
  rewrite count_order. fold c. pose proof (Nat.div_mod (c + 1) 2 ltac:(lia)). pose proof (Nat.mod_upper_bound (c + 1) 2 ltac:(lia)). lia.
Qed.
Definition population (rep : nat -> nat) (n : nat) : nat := list_sum (map rep (seq 0 n)).
Lemma repeated_length rep n : length (repeated rep n) = population rep n.
Proof. unfold repeated, population. induction (seq 0 n) as [|x l IH]; [reflexivity|]. cbn [flat_map]. rewrite app_length, repeat_length, IH. reflexivity. Qed.
Lemma INR_population rep n : INR (population rep n) = sum n (fun i => INR (rep i)).
Proof. rewrite <- sum_seq. unfold population. induction (seq 0 n) as [|x l IH]; [reflexivity|]. change (list_sum (map rep (x :: l))) with (rep x + list_sum (map rep l))%nat. rewrite plus_INR, IH. reflexivity. Qed.
Lemma population_merge w min : forall ps us s, NoDup (ends ps) -> (forall i, In i (ends ps) -> (i < length w)%nat) -> fresh w ps s ->
  INR (population (snd (merge_all w min ps us s)) (length w)) = INR (population (snd s) (length w)) - INR (merges w min ps).
Proof.
  induction ps as [|p ps IH]; intros us s D B F; cbn [merge_all]; [unfold merges; cbn; ring|].
  assert (D' : NoDup (ends ps)) by (rewrite ends_cons in D; inversion_clear D as [|? ? _ D2]; inversion_clear D2; auto).
  rewrite IH; [|auto|intros i I; apply B; right; right; auto|apply fresh_step; auto].
  unfold merges. cbn [filter]. destruct (F (fst p)) as [_ G1]; [left; auto|]. destruct (F (snd p)) as [_ G2]; [right; left; auto|].
  unfold merge_pair. destruct (rltb (at_ w (fst p)) min); [|reflexivity]. cbn [length]. rewrite S_INR.
  assert (K : forall r, (r < length w)%nat -> snd s r = 1%nat -> INR (population (put (snd s) r 0%nat) (length w)) = INR (population (snd s) (length w)) - 1).
  { intros r Hr H1. rewrite !INR_population. rewrite (sum_ext _ _ (put (fun i => INR (snd s i)) r 0)); [rewrite sum_put by auto; rewrite H1; cbn [INR]; ring|]. intros i _. unfold put. destruct (Nat.eqb i r); reflexivity. }
  destruct (rltb (hd 0 us) _); cbn [snd]; rewrite K; auto; try ring; apply B; [right; left|left]; auto.
Qed.
(** merged weights are bounded by twice the largest one *)
Lemma merge_bound w min b : (forall i, at_ w i <= b) -> (forall i, 0 <= at_ w i) -> forall ps us s, (forall i, fst s i <= 2 * b) -> forall i, fst (merge_all w min ps us s) i <= 2 * b.
Proof.
  intros W P. induction ps as [|p ps IH]; intros us s S i; cbn [merge_all]; [apply S|]. apply IH. clear i. intros i. unfold merge_pair. destruct (rltb _ min); [|apply S].
  pose proof (W (fst p)). pose proof (W (snd p)). destruct (rltb _ _); cbn [fst]; unfold put; destruct (Nat.eqb _ _); try apply S; lra.
Qed.
(** Exactly the small walkers are merged, in pairs: with no walker large enough to split, the
    population shrinks by one for every two walkers below the threshold (rounded up), or by
    the rounded number of pairs if that is smaller. *)
Theorem C45_vary_merged : forall {A} (d : A) w us arrays min max w' arrays', branch_vary d w us arrays min max = Some (w', arrays') ->
  (forall x, In x w -> 0 <= x /\ 2 * x <= max) -> 0 <= max ->
  length w' = (length w - Nat.min (round_merge_pairs (count (fun x => rltb x min) w / 2 + 1)) ((count (fun x => rltb x min) w + 1) / 2))%nat.
Proof.
  intros A d w us arrays min max w' arrays' H X MX. unfold branch_vary in H. set (m := round_merge_pairs _) in *.
  destruct (Nat.ltb_spec (length w) (2 * m)) as [|L]; [discriminate|]. apply some_pair in H; destruct H as [<- _]. destruct (pairs_ok w m L) as [PL [PD [PB _]]].
  rewrite map_length, repeated_length. rewrite <- merges_count by auto. rewrite do_branch_eq.
  set (s := merge_all w min (pairs_of w m) us (start w)).
  assert (AT : forall i, 0 <= at_ w i /\ 2 * at_ w i <= max).
  { intros i. unfold at_. destruct (Nat.lt_ge_cases i (length w)) as [I|I]; [apply X, nth_In; auto|rewrite nth_overflow by auto; lra]. }
  assert (NS : forall i, rltb max (fst s i) = false).
  { intros i. apply rltb_false. unfold s. replace max with (2 * (max / 2)) by field. apply merge_bound; intros j; specialize (AT j); cbn [start fst] in *; lra. }
  assert (PE : population (snd (split max s)) (length w) = population (snd s) (length w)).
  { unfold population. f_equal. apply map_ext. intros i. unfold split. cbn [snd]. rewrite NS. lia. }
  rewrite PE. apply INR_eq. unfold s. rewrite population_merge; [|auto|auto|intros i _; split; reflexivity].
  assert (P0 : population (snd (start w)) (length w) = length w).
  { unfold population, start. cbn [snd]. rewrite <- (seq_length (length w) 0) at 2. induction (seq 0 (length w)) as [|x l IH]; [reflexivity|]. change (list_sum (map (fun _ => 1%nat) (x :: l))) with (1 + list_sum (map (fun _ : nat => 1%nat) l))%nat. rewrite IH. reflexivity. }
  rewrite P0. rewrite minus_INR; [reflexivity|]. rewrite merges_count by auto. lia.
Qed.
(** With no walker below the threshold, exactly the walkers above max are split in two halves. *)
Theorem C45_vary_split : forall {A} (d : A) w us arrays min max w' arrays', branch_vary d w us arrays min max = Some (w', arrays') ->
  (forall x, In x w -> min <= x) ->
  w' = flat_map (fun x => if Rlt_dec max x then [x / 2; x / 2] else [x]) w /\
  arrays' = map (fun arr => flat_map (fun i => if Rlt_dec max (nth i w 0) then [nth i arr d; nth i arr d] else [nth i arr d]) (seq 0 (length w))) arrays.
Proof.
  intros A d w us arrays min max w' arrays' H X. unfold branch_vary in H. set (m := round_merge_pairs _) in *.
  destruct (Nat.ltb_spec (length w) (2 * m)) as [|L]; [discriminate|]. apply some_pair in H; destruct H as [<- <-]. destruct (pairs_ok w m L) as [PL [PD [PB _]]].
  rewrite do_branch_eq.
  assert (M : merge_all w min (pairs_of w m) us (start w) = start w).
  { revert us PB. clear - X. generalize (pairs_of w m). induction l as [|p l IH]; intros us B; [reflexivity|]. cbn [merge_all].
    assert (N : rltb (at_ w (fst p)) min = false) by (apply rltb_false, X; unfold at_; apply nth_In, B; left; auto).
    unfold merge_pair at 1. rewrite N. apply IH. intros i I. apply B. right. right. auto. }
  rewrite M. unfold split, start. cbn [fst snd]. unfold repeated.
  assert (MF : forall {T} (f : nat -> T) (g : nat -> list nat) l, map f (flat_map g l) = flat_map (fun i => map f (g i)) l).
  { intros T f g l. induction l as [|x l IH]; [reflexivity|]. cbn [flat_map]. rewrite map_app, IH. reflexivity. }
  split.
  - rewrite MF. rewrite (list_map_nth w) at 2. rewrite flat_map_concat_map, (flat_map_concat_map _ (map _ _)), map_map. f_equal. apply map_ext. intros i. fold (at_ w i).
    unfold rltb. destruct (Rlt_dec max (at_ w i)); cbn [Nat.mul Nat.add repeat map]; destruct (Rlt_dec max (at_ w i)); try contradiction; [replace (at_ w i * (1 - 1 / 2)) with (at_ w i / 2) by field|replace (at_ w i * (1 - 0 / 2)) with (at_ w i) by field]; reflexivity.
  - apply map_ext. intros arr. rewrite MF. rewrite !flat_map_concat_map. f_equal. apply map_ext. intros i. fold (at_ w i). unfold rltb. destruct (Rlt_dec max (at_ w i)); reflexivity.
Qed.

(** ** When the call fails, and how much of the work is done *)
Lemma leading_bounds : forall f t, (t <= f)%nat -> (leading f t <= t)%nat /\ ((1 <= t)%nat -> (t < 2 * leading f t)%nat).
Proof.
  assert (G : forall f t, (t <= f)%nat -> (leading f t <= t)%nat /\ ((1 <= t)%nat -> (1 <= leading f t)%nat /\ (t < 2 * leading f t)%nat /\ ((10 <= t)%nat -> (t + 1 <= 2 * leading f t)%nat))).
  { induction f as [|f IH]; intros t H; [cbn; lia|]. cbn [leading]. destruct (Nat.ltb_spec t 10) as [T|T]; [lia|].
    assert (D : (t / 10 < t)%nat) by (apply Nat.div_lt; lia). destruct (IH (t / 10)%nat) as [A B]; [lia|].
    pose proof (Nat.div_mod t 10 ltac:(lia)) as DM. pose proof (Nat.mod_upper_bound t 10 ltac:(lia)) as MB. set (q := (t / 10)%nat) in *. assert (1 <= q)%nat by lia. specialize (B ltac:(lia)). lia. }
  intros f t H. destruct (G f t H) as [A B]. split; [auto|]. intros T. apply B. auto.
Qed.
(** The number of pairs is rounded down, by less than a factor of two. *)
Theorem C45_round : forall t, (round_merge_pairs t <= t)%nat /\ ((1 <= t)%nat -> (t < 2 * round_merge_pairs t)%nat) /\ ((t <= 10)%nat -> round_merge_pairs t = t).
Proof.
  intros t. unfold round_merge_pairs. destruct (Nat.leb_spec t 10) as [H|H]; [split; [lia|]; split; [lia|auto]|]. destruct (leading_bounds t t (le_n t)) as [A B]. split; [auto|]. split; [auto|lia].
Qed.
(** The call succeeds when at least two walkers are not small ... *)
Theorem C45_vary_succeeds : forall {A} (d : A) w us arrays min max, (count (fun x => rltb x min) w + 2 <= length w)%nat -> branch_vary d w us arrays min max <> None.
Proof.
  intros A d w us arrays min max H. unfold branch_vary. set (c := count (fun x => rltb x min) w) in *. destruct (C45_round (c / 2 + 1)) as [R _].
  pose proof (Nat.div_mod c 2 ltac:(lia)). destruct (Nat.ltb_spec (length w) (2 * round_merge_pairs (c / 2 + 1))); [lia|discriminate].
Qed.
(** ... but a single walker, or a pair of small walkers, makes it raise. *)
Theorem C45_vary_crash_refuted : forall x y us min max, branch_vary 0 [x] us [[x]] min max = None /\ (x < min -> y < min -> branch_vary 0 [x; y] us [[x; y]] min max = None).
Proof.
  intros x y us min max. split.
  - unfold branch_vary, count. cbn [filter]. destruct (rltb x min); reflexivity.
  - intros X Y. unfold branch_vary, count. cbn [filter]. apply rltb_true in X. apply rltb_true in Y. rewrite X, Y. reflexivity.
Qed.
