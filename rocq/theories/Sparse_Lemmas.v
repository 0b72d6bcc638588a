(** Lemmas for C39: owner-by-owner sums, merged slots, and owner roles under re-indexing. *)
From Coq Require Import Reals List Arith Bool Lra Lia.
From Verif Require Import Lin Shape Lap_Spec Lap_Lang Lap_Model Sparse_Model Sparse_Spec.
Import ListNotations.
Open Scope R_scope.
Local Notation "a =? b" := (Nat.eqb a b).

(** ** lsum *)
Lemma lsum_ext {A} (f g : A -> R) l : (forall x, In x l -> f x = g x) -> lsum f l = lsum g l.
Proof. induction l as [|x l IH]; intros H; cbn; [reflexivity|]. rewrite (H x) by (left; reflexivity). f_equal. apply IH. intros y I. apply H. right. exact I. Qed.
Lemma lsum_map {A B} (f : B -> R) (h : A -> B) l : lsum f (map h l) = lsum (fun x => f (h x)) l.
Proof. induction l as [|x l IH]; cbn; [reflexivity|]. f_equal. exact IH. Qed.
Lemma lsum_plus {A} (f g : A -> R) l : lsum (fun x => f x + g x) l = lsum f l + lsum g l.
Proof. induction l as [|x l IH]; cbn; [lra|]. fold (lsum (fun x => f x + g x) l) (lsum f l) (lsum g l). rewrite IH. lra. Qed.
Lemma lsum_scal {A} c (f : A -> R) l : lsum (fun x => c * f x) l = c * lsum f l.
Proof. induction l as [|x l IH]; cbn; [lra|]. fold (lsum (fun x => c * f x) l) (lsum f l). rewrite IH. lra. Qed.
Lemma lsum_sum {A} n (f : nat -> A -> R) l : lsum (fun x => sum n (fun k => f k x)) l = sum n (fun k => lsum (f k) l).
Proof.
  induction l as [|x l IH]; cbn; [symmetry; apply sum_0; auto|]. fold (lsum (fun x => sum n (fun k => f k x)) l). rewrite IH, <- sum_plus. reflexivity.
Qed.

(** ** Sums over owners and coordinates *)
Definition ind (i p : nat) : R := if i =? p then 1 else 0.
Definition spread (b : basis) (S : nat) (i : nat -> nat) (f : nat -> nat -> R) (k : nat) : R :=
  sum S (fun s => ind (i s) (own b k) * f s (crd b k)).
Lemma to_dense_spread b sh t k o : to_dense b sh t k o = spread b (slots t) (fun s => owner_id sh (owner t s) o) (fun s c => blk t s c o) k.
Proof. reflexivity. Qed.
Lemma sum_ind2 N i j : (i < N)%nat -> (j < N)%nat -> sum N (fun p => ind i p * ind j p) = ind i j.
Proof.
  intros I J. rewrite (sum_ext N _ (fun p => ind i p * delta p j)). 2:{ intros p _. unfold ind, delta. rewrite (Nat.eqb_sym p j). reflexivity. }
  apply sum_delta_r. exact J.
Qed.
Lemma spread_ext b S i i' f f' k : (forall s, (s < S)%nat -> i s = i' s) -> (forall s c, (s < S)%nat -> f s c = f' s c) -> spread b S i f k = spread b S i' f' k.
Proof. intros I F. apply sum_ext. intros s H. rewrite (I s H), (F s _ H). reflexivity. Qed.
Lemma spread_scale b S i f a k : spread b S i (fun s c => f s c * a) k = spread b S i f k * a.
Proof. unfold spread. rewrite <- sum_scal_r. apply sum_ext. intros. ring. Qed.
Lemma spread_plus b S i f g k : spread b S i (fun s c => f s c + g s c) k = spread b S i f k + spread b S i g k.
Proof. unfold spread. rewrite <- sum_plus. apply sum_ext. intros. ring. Qed.
Lemma spread_lsum {A} b S i (f : A -> nat -> nat -> R) l k :
  spread b S i (fun s c => lsum (fun x => f x s c) l) k = lsum (fun x => spread b S i (f x) k) l.
Proof.
  unfold spread. rewrite lsum_sum. apply sum_ext. intros s _. rewrite <- lsum_scal. reflexivity.
Qed.
Lemma cross_spread b S i f S' i' f' : wf_basis b -> (forall s, (s < S)%nat -> (i s < b_N b)%nat) -> (forall s, (s < S')%nat -> (i' s < b_N b)%nat) ->
  sum (b_n b) (fun k => spread b S i f k * spread b S' i' f' k) =
  sum S (fun s => sum S' (fun s' => if i s =? i' s' then sum (b_C b) (fun c => f s c * f' s' c) else 0)).
Proof.
  intros W I I'. rewrite (sum_ext _ _ (fun k => sum S (fun s => sum S' (fun s' => (ind (i s) (own b k) * ind (i' s') (own b k)) * (f s (crd b k) * f' s' (crd b k)))))).
  2:{ intros k _. unfold spread. rewrite <- sum_scal_r. apply sum_ext. intros s _. rewrite <- sum_scal_l. apply sum_ext. intros. ring. }
  rewrite sum_swap. apply sum_ext. intros s Hs. rewrite sum_swap. apply sum_ext. intros s' Hs'.
  rewrite (W (fun p c => ind (i s) p * ind (i' s') p * (f s c * f' s' c))).
  rewrite (sum_ext (b_N b) _ (fun p => ind (i s) p * ind (i' s') p * sum (b_C b) (fun c => f s c * f' s' c))) by (intros p _; apply sum_scal_l).
  rewrite sum_scal_r, sum_ind2 by auto. unfold ind. destruct (i s =? i' s'); ring.
Qed.

(** ** Roles *)
Lemma nats_eqb_eq l : forall m, nats_eqb l m = true -> l = m.
Proof.
  induction l as [|x l IH]; intros [|y m] H; cbn in H; try discriminate; [reflexivity|]. apply andb_true_iff in H as [A B]. apply Nat.eqb_eq in A. subst y. f_equal. apply IH. exact B.
Qed.
Lemma role_eqb_eq r q : role_eqb r q = true -> r = q.
Proof.
  destruct r as [a v], q as [a' v']. unfold role_eqb. cbn. intros H. apply andb_true_iff in H as [A B]. apply nats_eqb_eq in B. subst v'.
  destruct a, a'; try discriminate; [apply Nat.eqb_eq in A; subst|]; reflexivity.
Qed.
Lemma roles_eqb_eq l : forall m, roles_eqb l m = true -> l = m.
Proof.
  induction l as [|x l IH]; intros [|y m] H; cbn in H; try discriminate; [reflexivity|]. apply andb_true_iff in H as [A B]. apply role_eqb_eq in A. subst y. f_equal. apply IH. exact B.
Qed.
Lemma owner_id_lt N sh r o : wf_role N sh r -> (0 < size sh)%nat -> (o < size sh)%nat -> (owner_id sh r o < N)%nat.
Proof.
  intros [A F] P O. unfold owner_id. assert (X : forall j, (j < length (vals r))%nat -> (nth j (vals r) 0 < N)%nat).
  { intros j J. rewrite Forall_forall in F. apply F. apply nth_In. exact J. }
  destruct (ax r) as [a|].
  - destruct A as (A & L & _). apply X. rewrite L. apply (unravel_inside sh o O). exact A.
  - apply X. lia.
Qed.
Lemma owner_wf b sh t s : Forall (wf_role (b_N b) sh) (owners t) -> (s < slots t)%nat -> wf_role (b_N b) sh (owner t s).
Proof. intros F S. rewrite Forall_forall in F. apply F. apply nth_In. exact S. Qed.
(** owners of a role made by [mk_role] with the right number of values *)
Lemma mk_role_id sh a v o : (a < length sh)%nat -> length v = nth a sh 0%nat -> (o < size sh)%nat ->
  owner_id sh (mk_role (Some a) v) o = nth (nth a (unravel sh o) 0%nat) v 0%nat.
Proof.
  intros A L O. unfold owner_id, mk_role. cbn. destruct (Nat.eqb_spec (length v) 1) as [E|E]; cbn [ax vals]; [|reflexivity].
  pose proof (proj2 (unravel_inside sh o O) a A) as B. rewrite <- L, E in B. replace (nth a (unravel sh o) 0%nat) with 0%nat by lia. reflexivity.
Qed.
Lemma mk_role_wf N sh a v : (a < length sh)%nat -> length v = nth a sh 0%nat -> Forall (fun p => (p < N)%nat) v -> wf_role N sh (mk_role (Some a) v).
Proof.
  intros A L F. unfold wf_role, mk_role. cbn. destruct (Nat.eqb_spec (length v) 1) as [E|E]; cbn; auto.
Qed.

Lemma wf_none N sh r : wf_role N sh r -> ax r = None -> length (vals r) = 1%nat.
Proof. intros [A _] E. rewrite E in A. exact A. Qed.
Lemma wf_some N sh r a : wf_role N sh r -> ax r = Some a -> (a < length sh)%nat /\ length (vals r) = nth a sh 0%nat /\ length (vals r) <> 1%nat.
Proof. intros [A _] E. rewrite E in A. exact A. Qed.

(** ** Merged slots *)
Lemma find_role_spec r l i : find_role r l = Some i -> (i < length l)%nat /\ nth i l role0 = r.
Proof.
  unfold find_role. set (go := fix go i l := match l with [] => None | q :: l' => if role_eqb q r then Some i else go (S i) l' end).
  assert (G : forall l j i, go j l = Some i -> (j <= i)%nat /\ (i - j < length l)%nat /\ nth (i - j) l role0 = r).
  { clear. induction l as [|q l IH]; intros j i H; cbn in H; [discriminate|]. destruct (role_eqb q r) eqn:E.
    - injection H as <-. apply role_eqb_eq in E. rewrite Nat.sub_diag. cbn. repeat split; auto; lia.
    - apply IH in H as (A & B & C). split; [lia|]. replace (i - j)%nat with (S (i - S j)) by lia. cbn. split; [lia|exact C]. }
  intros H. apply G in H as (_ & B & C). rewrite Nat.sub_0_r in *. auto.
Qed.
(** what [assign] guarantees *)
Definition good_slots (rs owners : list role) (slots : list nat) : Prop :=
  length slots = length rs /\ forall i, (i < length rs)%nat -> (nth i slots 0 < length owners)%nat /\ nth (nth i slots 0%nat) owners role0 = nth i rs role0.
Lemma assign_spec rs : forall acc, let (slots, acc') := assign rs acc in
  good_slots rs acc' slots /\ (exists ext, acc' = acc ++ ext) /\ (forall P, Forall P acc -> Forall P rs -> Forall P acc').
Proof.
  induction rs as [|r rs IH]; intros acc; cbn.
  { split; [split; [reflexivity|cbn; lia]|]. split; [exists []; rewrite app_nil_r; reflexivity|auto]. }
  destruct (find_role r acc) as [i|] eqn:E.
  - specialize (IH acc). destruct (assign rs acc) as [slots acc']. destruct IH as ([L G] & [ext X] & F). apply find_role_spec in E as [E1 E2].
    split; [|split; [exists ext; exact X|]].
    + split; [cbn; lia|]. intros [|j] J; cbn in *; [|apply G; lia]. subst acc'. rewrite app_length. split; [lia|]. rewrite app_nth1 by exact E1. exact E2.
    + intros P A B. inversion B; subst. auto.
  - specialize (IH (acc ++ [r])). destruct (assign rs (acc ++ [r])) as [slots acc']. destruct IH as ([L G] & [ext X] & F).
    split; [|split; [exists (r :: ext); rewrite X, <- app_assoc; reflexivity|]].
    + split; [cbn; lia|]. intros [|j] J; cbn in *; [|apply G; lia]. subst acc'. rewrite !app_length. cbn. split; [lia|]. rewrite <- app_assoc, app_nth2, Nat.sub_diag by lia. reflexivity.
    + intros P A B. inversion B; subst. apply F; [|assumption]. apply Forall_app. split; [exact A|]. constructor; auto.
Qed.
Lemma merge_roles_spec l r : let m := merge_roles l r in
  good_slots l (m_owners m) (m_lhs m) /\ good_slots r (m_owners m) (m_rhs m) /\ (forall P, Forall P l -> Forall P r -> Forall P (m_owners m)).
Proof.
  unfold merge_roles. pose proof (assign_spec l []) as A. destruct (assign l []) as [ls acc]. destruct A as ([L G] & _ & F).
  pose proof (assign_spec r acc) as B. destruct (assign r acc) as [rs acc']. destruct B as (G' & [ext X] & F'). cbn. split; [|split; [exact G'|auto]].
  split; [exact L|]. intros i I. destruct (G i I) as [U V]. subst acc'. rewrite app_length. split; [lia|]. rewrite app_nth1 by exact U. exact V.
Qed.
Lemma good_slots_repeat rs q slots : good_slots rs [q] slots -> good_slots rs [q; q] slots.
Proof.
  intros [L G]. split; [exact L|]. intros i I. destruct (G i I) as [U V]. cbn in U. assert (E : nth i slots 0%nat = 0%nat) by lia. rewrite E in *. cbn in *. auto.
Qed.
(** accumulating into merged slots does not change the expansion *)
Lemma sum_pick n j (c : R) : (j < n)%nat -> sum n (fun s => if j =? s then c else 0) = c.
Proof.
  intros J. rewrite (sum_ext n _ (fun s => c * delta s j)). 2:{ intros s _. unfold delta. rewrite Nat.eqb_sym. destruct (s =? j); ring. }
  rewrite sum_delta_r by exact J. reflexivity.
Qed.
Lemma spread_put b rs owners slots id f o k : good_slots rs owners slots ->
  spread b (length owners) (fun s => id (nth s owners role0)) (fun s c => put slots f s c o) k =
  spread b (length rs) (fun s => id (nth s rs role0)) (fun s c => f s c o) k.
Proof.
  intros [L G]. unfold spread, put. rewrite L.
  rewrite (sum_ext _ _ (fun s => sum (length rs) (fun i => if nth i slots 0%nat =? s then ind (id (nth i rs role0)) (own b k) * f i (crd b k) o else 0))).
  2:{ intros s _. rewrite <- sum_scal_l. apply sum_ext. intros i I. destruct (Nat.eqb_spec (nth i slots 0%nat) s) as [E|E]; [|ring].
      destruct (G i I) as [_ V]. rewrite <- E, V. reflexivity. }
  rewrite sum_swap. apply sum_ext. intros i I. apply sum_pick. apply (G i I).
Qed.
(** ** Trace *)
Lemma trace_spread b sh t o : wf_basis b -> (slots t = 1%nat \/ slots t = 2%nat) -> Forall (wf_role (b_N b) sh) (owners t) -> (0 < size sh)%nat -> (o < size sh)%nat ->
  trace b sh t o = sum (b_n b) (fun k => to_dense b sh t k o * to_dense b sh t k o).
Proof.
  intros W S F P O.
  assert (I : forall s, (s < slots t)%nat -> (owner_id sh (owner t s) o < b_N b)%nat) by (intros s Hs; apply owner_id_lt; auto; apply owner_wf; auto).
  rewrite (sum_ext _ _ (fun k => spread b (slots t) (fun s => owner_id sh (owner t s) o) (fun s c => blk t s c o) k * spread b (slots t) (fun s => owner_id sh (owner t s) o) (fun s c => blk t s c o) k)) by reflexivity.
  rewrite cross_spread by auto. unfold trace. destruct S as [S|S]; rewrite S in *; cbn [Nat.eqb sum].
  - rewrite Nat.eqb_refl. ring.
  - rewrite !Nat.eqb_refl. fold (ind (owner_id sh (owner t 0) o)).
    replace (sum (b_N b) (fun p => selector sh (owner t 0) o p * selector sh (owner t 1) o p)) with (ind (owner_id sh (owner t 0) o) (owner_id sh (owner t 1) o)).
    2:{ symmetry. apply sum_ind2; apply I; lia. }
    unfold ind. rewrite (Nat.eqb_sym (owner_id sh (owner t 1) o)). destruct (owner_id sh (owner t 0) o =? owner_id sh (owner t 1) o).
    + destruct (Rlt_dec 0 1) as [_|X]; [|exfalso; apply X; lra].
      rewrite (sum_ext (b_C b) (fun c => blk t 1 c o * blk t 0 c o) (fun c => blk t 0 c o * blk t 1 c o)) by (intros; ring). ring.
    + destruct (Rlt_dec 0 0) as [X|_]; [exfalso; lra|]. ring.
Qed.
