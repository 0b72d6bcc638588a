(** C45: branching with a fixed population. *)
From Coq Require Import Reals List Arith Bool Lra Lia Permutation Sorted.
From Coquelicot Require Import Coquelicot.
From Verif Require Import Lin Branch_Model Branch_Spec Branch_Lemmas Branch_Vary.
Import ListNotations.
Open Scope R_scope.

Lemma set_all_other {T} : forall idx (f : nat -> T) vals i, ~ In i idx -> set_all f idx vals i = f i.
Proof.
  induction idx as [|k idx IH]; intros f vals i N; [reflexivity|]. destruct vals as [|v vals]; [reflexivity|]. cbn [set_all]. rewrite IH by (intros X; apply N; right; auto).
  apply put_other. intros ->. apply N. left. auto.
Qed.
Lemma set_all_prod : forall idx big (f g F G : nat -> R) i, set_all f idx (map F big) i * set_all g idx (map G big) i = set_all (fun i => f i * g i) idx (map (fun j => F j * G j) big) i.
Proof.
  induction idx as [|k idx IH]; intros big f g F G i; [reflexivity|]. destruct big as [|b big]; [reflexivity|]. cbn [map set_all]. rewrite IH.
  enough (X : forall idx (p q : nat -> R) vals, (forall j, p j = q j) -> set_all p idx vals i = set_all q idx vals i).
  { apply X. intros j. unfold put. destruct (Nat.eqb j k); reflexivity. }
  clear. induction idx as [|k idx IH]; intros p q vals H; [apply H|]. destruct vals; [apply H|]. cbn. apply IH. intros j. unfold put. destruct (Nat.eqb j k); auto.
Qed.
Lemma sum_set n : forall idx big (f F : nat -> R), NoDup idx -> (forall i, In i idx -> (i < n)%nat) -> length idx = length big ->
  sum n (set_all f idx (map F big)) = sum n f - lsum f idx + lsum F big.
Proof.
  induction idx as [|k idx IH]; intros big f F D B L; destruct big as [|b big]; try discriminate; [cbn; ring|]. inversion_clear D as [|? ? D1 D2]. cbn [map set_all].
  rewrite IH; [|auto|intros i I; apply B; right; auto|cbn in L; lia]. rewrite sum_put by (apply B; left; auto).
  rewrite (lsum_ext (put f k (F b)) f idx) by (intros i I; apply put_other; intros ->; auto).
  change (lsum f (k :: idx)) with (f k + lsum f idx). change (lsum F (b :: big)) with (F b + lsum F big). ring.
Qed.
Lemma add_all_other : forall idx f vals i, ~ In i idx -> add_all f idx vals i = f i.
Proof.
  induction idx as [|k idx IH]; intros f vals i N; [reflexivity|]. destruct vals as [|v vals]; [reflexivity|]. cbn [add_all]. rewrite IH by (intros X; apply N; right; auto).
  apply put_other. intros ->. apply N. left. auto.
Qed.
Section Fixed.
Variables (w : list R).
Local Notation n := (length w).
Fixpoint gain (a : nat -> R) (us : list R) (ps : list (nat * nat)) : R :=
  match ps with [] => 0 | p :: ps' => at_ w (removed w (hd 0 us) p) * (a (kept w (hd 0 us) p) - a (removed w (hd 0 us) p)) + gain a (tl us) ps' end.
(** no draw hits its threshold exactly *)
Fixpoint generic (us : list R) (ps : list (nat * nat)) : Prop := match ps with [] => True | p :: ps' => hd 0 us <> threshold w p /\ generic (tl us) ps' end.
Lemma kept_removed u p : u <> threshold w p -> (kept w u p = fst p /\ removed w u p = snd p) \/ (kept w u p = snd p /\ removed w u p = fst p).
Proof. intros N. unfold kept, removed, rltb. destruct (Rlt_dec u (threshold w p)), (Rlt_dec (threshold w p) u); auto; lra. Qed.
Lemma removed_end u p : removed w u p = fst p \/ removed w u p = snd p.
Proof. unfold removed. destruct (rltb _ _); auto. Qed.
Lemma kept_end u p : kept w u p = fst p \/ kept w u p = snd p.
Proof. unfold kept. destruct (rltb _ _); auto. Qed.
Lemma each_ends f : (forall u p, f u p = fst p \/ f u p = snd p) -> forall ps us i, In i (each f us ps) -> In i (ends ps).
Proof. intros H. induction ps as [|p ps IH]; intros us i I; [destruct I|]. rewrite ends_cons. destruct I as [<-|I]; [destruct (H (hd 0 us) p) as [->| ->]; [left|right; left]; auto|right; right; eapply IH; eauto]. Qed.
Lemma each_length f : forall ps us, length (each f us ps) = length ps.
Proof. induction ps as [|p ps IH]; intros us; cbn; auto. Qed.
Lemma each_NoDup f : (forall u p, f u p = fst p \/ f u p = snd p) -> forall ps us, NoDup (ends ps) -> NoDup (each f us ps).
Proof.
  intros H. induction ps as [|p ps IH]; intros us D; [constructor|]. rewrite ends_cons in D. inversion_clear D as [|? ? D1 D2]. inversion_clear D2 as [|? ? D3 D4]. cbn [each]. constructor; [|auto].
  intros I. apply (each_ends f H) in I. destruct (H (hd 0 us) p) as [E|E]; rewrite E in I; auto. apply D1. right. auto.
Qed.
Lemma kept_not_removed : forall ps us, NoDup (ends ps) -> generic us ps -> forall i, In i (each (kept w) us ps) -> ~ In i (each (removed w) us ps).
Proof.
  induction ps as [|p ps IH]; intros us D G i I J; [destruct I|]; destruct G as [G1 G2]. rewrite ends_cons in D. inversion_clear D as [|? ? D1 D2]. inversion_clear D2 as [|? ? D3 D4].
  assert (K : ~ In (fst p) (ends ps)) by (intros X; apply D1; right; auto). assert (NE : fst p <> snd p) by (intros X; apply D1; left; auto).
  destruct (kept_removed _ _ G1) as [[E1 E2]|[E1 E2]]; cbn [each] in I, J; rewrite E1 in I; rewrite E2 in J; destruct I as [<-|I]; destruct J as [J|J];
    try (congruence); try (apply (each_ends _ removed_end) in J; auto; fail); try (subst i; apply (each_ends _ kept_end) in I; auto; fail); eapply IH; eauto.
Qed.
Lemma sum_add a : forall ps us f, NoDup (ends ps) -> generic us ps -> (forall i, In i (ends ps) -> (i < n)%nat) ->
  sum n (fun i => add_all f (each (kept w) us ps) (map (at_ w) (each (removed w) us ps)) i * a i) = sum n (fun i => f i * a i) + gain a us ps + lsum (fun i => at_ w i * a i) (each (removed w) us ps).
Proof.
  induction ps as [|p ps IH]; intros us f D G B; [cbn; ring|]; destruct G as [G1 G2]. cbn [each map add_all gain].
  rewrite IH; [|rewrite ends_cons in D; inversion_clear D as [|? ? _ D2]; inversion_clear D2; auto|auto|intros i I; apply B; right; right; auto].
  set (k := kept w (hd 0 us) p). set (r := removed w (hd 0 us) p).
  assert (K : (k < n)%nat) by (unfold k; destruct (kept_end (hd 0 us) p) as [->| ->]; apply B; [left|right; left]; auto).
  rewrite (sum_ext n (fun i => put f k (f k + at_ w r) i * a i) (put (fun i => f i * a i) k ((f k + at_ w r) * a k))) by (intros i _; unfold put; destruct (Nat.eqb_spec i k); subst; reflexivity).
  rewrite sum_put by auto. change (lsum (fun i => at_ w i * a i) (r :: each (removed w) (tl us) ps)) with (at_ w r * a r + lsum (fun i => at_ w i * a i) (each (removed w) (tl us) ps)). ring.
Qed.
Lemma fixed_formula (a : nat -> R) ps big us : NoDup (ends ps) -> (forall i, In i (ends ps) -> (i < n)%nat) -> NoDup big -> (forall i, In i big -> (i < n)%nat) -> length big = length ps ->
  generic us ps -> (forall i, In i big -> ~ In i (each (removed w) us ps)) ->
  sum n (fun i => do_branch_fixed_weight w us ps big i * set_all a (each (removed w) us ps) (map a big) i) = sum n (fun i => at_ w i * a i) + gain a us ps.
Proof.
  intros D B DB BB L G X. unfold do_branch_fixed_weight. set (rs := each (removed w) us ps) in *. set (ks := each (kept w) us ps) in *.
  set (w1 := add_all (at_ w) ks (map (at_ w) rs)). set (w2 := set_all w1 big (map (fun g => w1 g / 2) big)).
  assert (DR : NoDup rs) by (apply each_NoDup; auto; apply removed_end). assert (BR : forall i, In i rs -> (i < n)%nat) by (intros i I; apply B; eapply (each_ends _ removed_end); eauto).
  assert (LR : length rs = length big) by (unfold rs; rewrite each_length; auto).
  rewrite (sum_ext n _ (set_all (fun i => w2 i * a i) rs (map (fun j => w2 j * a j) big))) by (intros i _; apply set_all_prod).
  rewrite sum_set by auto.
  assert (W2R : lsum (fun i => w2 i * a i) rs = lsum (fun i => at_ w i * a i) rs).
  { apply lsum_ext. intros i I. unfold w2. rewrite set_all_other by (intros J; exact (X i J I)). unfold w1. rewrite add_all_other; [reflexivity|]. intros J. exact (kept_not_removed ps us D G i J I). }
  assert (HALF : forall f l, NoDup l -> forall i, In i l -> set_all f l (map (fun g : nat => w1 g / 2) l) i = w1 i / 2).
  { clear. intros f l. revert f. induction l as [|k l IH]; intros f D i I; [destruct I|]. inversion_clear D as [|? ? D1 D2]. cbn [map set_all]. destruct I as [<-|I]; [rewrite set_all_other by auto; apply put_same|apply IH; auto]. }
  assert (W2B : lsum (fun i => w2 i * a i) big = lsum (fun i => w1 i / 2 * a i) big).
  { apply lsum_ext. intros i I. unfold w2. rewrite HALF by auto. reflexivity. }
  assert (SW2 : sum n (fun i => w2 i * a i) = sum n (fun i => w1 i * a i) - lsum (fun i => w1 i * a i) big + lsum (fun i => w1 i / 2 * a i) big).
  { rewrite <- (sum_set n big big (fun i => w1 i * a i) (fun i => w1 i / 2 * a i)) by auto. apply sum_ext. intros i _. unfold w2.
    rewrite <- set_all_prod. f_equal. clear. revert a. induction big as [|k l IH]; intros a; [reflexivity|]. cbn [map set_all].
    enough (Y : forall l (p q : nat -> R) vals, (forall j, p j = q j) -> set_all p l vals i = set_all q l vals i).
    { rewrite (Y l (put a k (a k)) a); [apply IH|]. intros j. unfold put. destruct (Nat.eqb_spec j k); subst; reflexivity. }
    clear. induction l as [|k idx IH]; intros p q vals H; [apply H|]. destruct vals; [apply H|]. cbn. apply IH. intros j. unfold put. destruct (Nat.eqb j k); auto. }
  assert (SW1 : sum n (fun i => w1 i * a i) = sum n (fun i => at_ w i * a i) + gain a us ps + lsum (fun i => at_ w i * a i) rs) by (apply sum_add; auto).
  assert (HB : 2 * lsum (fun i => w1 i / 2 * a i) big = lsum (fun i => w1 i * a i) big).
  { clear. induction big as [|k l IH]; [cbn; ring|]. change (2 * (w1 k / 2 * a k + lsum (fun i => w1 i / 2 * a i) l) = w1 k * a k + lsum (fun i => w1 i * a i) l). rewrite <- IH. field. }
  rewrite W2R, W2B, SW2, SW1. lra.
Qed.
Lemma gain_one : forall ps us, gain (fun _ => 1) us ps = 0.
Proof. induction ps as [|p ps IH]; intros us; cbn; [reflexivity|]. rewrite IH. ring. Qed.
Lemma gain_mean a : (forall i, (i < n)%nat -> 0 < at_ w i) -> forall ps k c, (length ps <= k)%nat -> (forall i, In i (ends ps) -> (i < n)%nat) ->
  forall g, (forall us, length us = k -> (forall u, In u us -> 0 < u < 1) -> generic us ps -> g us = c + gain a us ps) -> mean k g c.
Proof.
  intros P. induction ps as [|p ps IH]; intros k c L B g H.
  - cbn [gain] in H. clear L B. revert g c H. induction k as [|k IHk]; intros g c H; cbn [mean]; [rewrite H; [ring|auto|intros u []|exact I]|].
    exists (fun _ => c), []. split.
    + intros u U _. apply IHk. intros us Lu Iu _. rewrite H; [ring|cbn; auto|intros v [<-|V]; auto|exact I].
    + pose proof (step_mean (fun _ => c) 0 c c ltac:(lra) (fun _ _ => eq_refl) (fun _ _ => eq_refl)) as E. replace (0 * c + (1 - 0) * c) with c in E by ring. exact E.
  - destruct k as [|k]; [cbn in L; lia|].
    assert (P1 : 0 < at_ w (fst p)) by (apply P, B; left; auto). assert (P2 : 0 < at_ w (snd p)) by (apply P, B; right; left; auto).
    assert (B' : forall i, In i (ends ps) -> (i < n)%nat) by (intros i I; apply B; right; right; auto).
    assert (CE : c = threshold w p * (c + at_ w (snd p) * (a (fst p) - a (snd p))) + (1 - threshold w p) * (c + at_ w (fst p) * (a (snd p) - a (fst p)))).
    { transitivity (c + (threshold w p * (at_ w (snd p) * (a (fst p) - a (snd p))) + (1 - threshold w p) * (at_ w (fst p) * (a (snd p) - a (fst p))))); [rewrite threshold_fair by auto; ring|ring]. }
    rewrite CE. pose proof (threshold_range w p P1 P2) as T. apply mean_step; [exact T| |].
    + intros u U. apply IH; [cbn in L; lia|auto|]. intros us Lu Iu G. rewrite H; [|cbn; auto|intros v [<-|V]; [lra|auto]|cbn [generic hd tl]; split; [lra|auto]].
      cbn [gain hd tl]. unfold kept, removed. assert (K1 : rltb u (threshold w p) = true) by (apply rltb_true; lra). assert (K2 : rltb (threshold w p) u = false) by (apply rltb_false; lra). rewrite K1, K2. ring.
    + intros u U. apply IH; [cbn in L; lia|auto|]. intros us Lu Iu G. rewrite H; [|cbn; auto|intros v [<-|V]; [lra|auto]|cbn [generic hd tl]; split; [lra|auto]].
      cbn [gain hd tl]. unfold kept, removed. assert (K1 : rltb u (threshold w p) = false) by (apply rltb_false; lra). assert (K2 : rltb (threshold w p) u = true) by (apply rltb_true; lra). rewrite K1, K2. ring.
Qed.
End Fixed.

(** ** Smallest and largest walkers do not overlap when weights are distinct *)
Lemma desc_sorted (key : nat -> R) n : StronglySorted (fun i j => - key i <= - key j) (order (fun i j => rleb (key j) (key i)) n).
Proof.
  assert (E : order (fun i j => rleb (key j) (key i)) n = order (fun i j => rleb (- key i) (- key j)) n).
  { unfold order. induction (seq 0 n) as [|x l IH]; [reflexivity|]. cbn [fold_right]. rewrite IH. generalize (fold_right (place (fun i j => rleb (- key i) (- key j))) [] l). induction l0 as [|y l0 IH0]; [reflexivity|]. cbn [place].
    assert (B : rleb (key y) (key x) = rleb (- key x) (- key y)) by (unfold rleb; destruct (Rle_dec (key y) (key x)), (Rle_dec (- key x) (- key y)); auto; lra). rewrite B. rewrite IH0. reflexivity. }
  rewrite E. apply (order_sorted (fun i => - key i)).
Qed.
Lemma first_count (key : nat -> R) n k i : In i (firstn k (order (fun i j => rleb (key i) (key j)) n)) -> (length (filter (fun j => rltb (key j) (key i)) (seq 0 n)) < k)%nat.
Proof.
  intros I. set (l := order _ n) in *. assert (LL : length l = n) by (apply order_length).
  apply In_nth with (d := 0%nat) in I as [p [P E]]. rewrite firstn_length in P. rewrite firstn_nth in E by lia.
  rewrite <- (filter_perm _ _ _ (order_perm (fun i j => rleb (key i) (key j)) n)). fold l.
  assert (N : ~ (p < length (filter (fun j => rltb (key j) (key i)) l))%nat).
  { intros H. apply (sorted_filter key (key i) l) in H; [rewrite E in H; lra|apply order_sorted|lia]. }
  lia.
Qed.
Lemma order_ext (b1 b2 : nat -> nat -> bool) n : (forall i j, b1 i j = b2 i j) -> order b1 n = order b2 n.
Proof. intros H. unfold order. induction (seq 0 n) as [|x l IH]; [reflexivity|]. cbn [fold_right]. rewrite IH. generalize (fold_right (place b2) [] l). induction l0 as [|y l0 IH0]; [reflexivity|]. cbn [place]. rewrite H, IH0. reflexivity. Qed.
Lemma first_count_desc w k i : In i (largest w k) -> (length (filter (fun j => rltb (at_ w i) (at_ w j)) (seq 0 (length w))) < k)%nat.
Proof.
  intros I. unfold largest in I. rewrite (order_ext _ (fun i j => rleb (- at_ w i) (- at_ w j))) in I by (intros x y; unfold rleb; destruct (Rle_dec (at_ w y) (at_ w x)), (Rle_dec (- at_ w x) (- at_ w y)); auto; lra).
  apply (first_count (fun i => - at_ w i)) in I. rewrite (filter_ext _ (fun j => rltb (- at_ w j) (- at_ w i))); [exact I|].
  intros j. unfold rltb. destruct (Rlt_dec (at_ w i) (at_ w j)), (Rlt_dec (- at_ w j) (- at_ w i)); auto; lra.
Qed.
Lemma three_way w i : NoDup w -> (i < length w)%nat ->
  (length (filter (fun j => rltb (at_ w j) (at_ w i)) (seq 0 (length w))) + length (filter (fun j => rltb (at_ w i) (at_ w j)) (seq 0 (length w))) + 1 = length w)%nat.
Proof.
  intros D I. rewrite <- (seq_length (length w) 0) at 3.
  assert (G : forall l, NoDup l -> (forall j, In j l -> (j < length w)%nat) -> (length (filter (fun j => rltb (at_ w j) (at_ w i)) l) + length (filter (fun j => rltb (at_ w i) (at_ w j)) l) + (if in_dec Nat.eq_dec i l then 1 else 0) = length l)%nat).
  { induction l as [|x l IH]; intros ND B; [reflexivity|]. inversion_clear ND as [|? ? N1 N2]. specialize (IH N2 (fun j J => B j (or_intror J))). cbn [filter length].
    destruct (Nat.eq_dec x i) as [->|NE].
    - assert (F : rltb (at_ w i) (at_ w i) = false) by (apply rltb_false; lra). rewrite F. destruct (in_dec Nat.eq_dec i l); [contradiction|]. destruct (in_dec Nat.eq_dec i (i :: l)) as [|X]; [lia|destruct X; left; auto].
    - assert (NW : at_ w x <> at_ w i). { unfold at_. intros E. apply NE. apply (proj1 (NoDup_nth w 0) D); auto. apply B. left. auto. }
      assert (SI : (if in_dec Nat.eq_dec i (x :: l) then 1 else 0)%nat = (if in_dec Nat.eq_dec i l then 1 else 0)%nat).
      { destruct (in_dec Nat.eq_dec i (x :: l)) as [[|]|X]; destruct (in_dec Nat.eq_dec i l) as [|Y]; auto; try congruence; try contradiction. destruct X. right. auto. }
      rewrite SI. destruct (Rtotal_order (at_ w x) (at_ w i)) as [H|[H|H]]; [|contradiction|].
      + assert (A1 : rltb (at_ w x) (at_ w i) = true) by (apply rltb_true; auto). assert (A2 : rltb (at_ w i) (at_ w x) = false) by (apply rltb_false; lra). rewrite A1, A2. cbn [length]. lia.
      + assert (A1 : rltb (at_ w x) (at_ w i) = false) by (apply rltb_false; lra). assert (A2 : rltb (at_ w i) (at_ w x) = true) by (apply rltb_true; auto). rewrite A1, A2. cbn [length]. lia. }
  specialize (G (seq 0 (length w)) (seq_NoDup _ _)). destruct (in_dec Nat.eq_dec i (seq 0 (length w))) as [|X]; [|destruct X; apply in_seq; lia]. apply G. intros j J. apply in_seq in J. lia.
Qed.
Lemma no_overlap w m i : NoDup w -> (3 * m <= length w)%nat -> In i (largest w m) -> ~ In i (smallest w (2 * m)).
Proof.
  intros D L IL IS. assert (B : (i < length w)%nat) by (eapply largest_ok; eauto). pose proof (three_way w i D B). apply first_count_desc in IL. apply (first_count (at_ w)) in IS. lia.
Qed.

(** ** Theorems *)
Lemma fixed_map {A} (d : A) w us arrays min max w' arrays' : branch_fixed d w us arrays min max = Some (w', arrays') ->
  (num_to_change w min max = 0%nat /\ w' = w /\ arrays' = arrays) \/
  (num_to_change w min max <> 0%nat /\ (2 * num_to_change w min max <= length w)%nat /\
   w' = map (do_branch_fixed_weight w us (pairs_of w (num_to_change w min max)) (largest w (num_to_change w min max))) (seq 0 (length w)) /\
   arrays' = map (fun arr => map (do_branch_fixed_array d w us (pairs_of w (num_to_change w min max)) (largest w (num_to_change w min max)) arr) (seq 0 (length w))) arrays).
Proof.
  intros H. unfold branch_fixed in H. set (m := num_to_change w min max) in *. destruct (Nat.eqb_spec m 0) as [Z|Z]; [left; split; [auto|]; split; congruence|].
  destruct (Nat.ltb_spec (length w) (2 * m)) as [|L]; [discriminate|]. apply some_pair in H as [<- <-]. right. auto.
Qed.
(** The population size never changes. *)
Theorem C45_fixed_size : forall {A} (d : A) w us arrays min max w' arrays', branch_fixed d w us arrays min max = Some (w', arrays') ->
  length w' = length w /\ length arrays' = length arrays /\ ((forall arr, In arr arrays -> length arr = length w) -> forall arr, In arr arrays' -> length arr = length w).
Proof.
  intros A d w us arrays min max w' arrays' H. destruct (fixed_map _ _ _ _ _ _ _ _ H) as [[_ [-> ->]]|[_ [_ [-> ->]]]]; [auto|].
  rewrite !map_length, seq_length. split; [auto|]. split; [auto|]. intros _ arr I. apply in_map_iff in I as [x [<- _]]. rewrite map_length, seq_length. reflexivity.
Qed.
(** All arrays are permuted alike: output row j comes from walker [src j] in every array. *)
Lemma set_all_src {A} (d : A) (arr : list A) : forall idx big s j, set_all (fun i => nth (s i) arr d) idx (map (fun i => nth i arr d) big) j = nth (set_all s idx big j) arr d.
Proof.
  induction idx as [|k idx IH]; intros big s j; [reflexivity|]. destruct big as [|b big]; [reflexivity|]. cbn [map set_all].
  enough (X : forall l (p q : nat -> A) vals, (forall j, p j = q j) -> set_all p l vals j = set_all q l vals j).
  { rewrite (X idx _ (fun i => nth (put s k b i) arr d)); [apply IH|]. intros i. unfold put. destruct (Nat.eqb i k); reflexivity. }
  clear. induction l as [|k idx IH]; intros p q vals H; [apply H|]. destruct vals; [apply H|]. cbn. apply IH. intros j'. unfold put. destruct (Nat.eqb j' k); auto.
Qed.
Lemma set_all_bound n : forall idx big s j, (forall i, (i < n)%nat -> (s i < n)%nat) -> (forall b, In b big -> (b < n)%nat) -> (j < n)%nat -> (set_all s idx big j < n)%nat.
Proof.
  induction idx as [|k idx IH]; intros big s j S B J; [apply S; auto|]. destruct big as [|b big]; [apply S; auto|]. cbn [set_all]. apply IH; auto; [|intros x X; apply B; right; auto].
  intros i I. unfold put. destruct (Nat.eqb i k); [apply B; left; auto|auto].
Qed.
Theorem C45_fixed_aligned : forall {A} (d : A) w us arrays min max w' arrays', branch_fixed d w us arrays min max = Some (w', arrays') -> (forall arr, In arr arrays -> length arr = length w) ->
  exists src, length src = length w' /\ copies d (length w) src arrays arrays'.
Proof.
  intros A d w us arrays min max w' arrays' H LA. pose proof (C45_fixed_size d _ _ _ _ _ _ _ H) as [LW _]. destruct (fixed_map _ _ _ _ _ _ _ _ H) as [[_ [-> ->]]|[_ [_ [EW ->]]]].
  - exists (seq 0 (length w)). split; [apply seq_length|]. split; [intros s S; apply in_seq in S; lia|].
    rewrite <- (map_id arrays) at 1. apply map_ext_in. intros arr I. apply nth_ext with d (nth 0 arr d); [rewrite map_length, seq_length; apply LA; auto|]. intros i Hi. rewrite (map_nth (fun s => nth s arr d)), seq_nth by (rewrite <- (LA arr I); auto). reflexivity.
  - set (m := num_to_change w min max) in *. exists (map (set_all (fun i => i) (each (removed w) us (pairs_of w m)) (largest w m)) (seq 0 (length w))). split; [rewrite LW, map_length, seq_length; auto|]. split.
    + intros s S. apply in_map_iff in S as [j [<- J]]. apply in_seq in J. apply set_all_bound; [auto|apply largest_ok|lia].
    + apply map_ext. intros arr. rewrite map_map. apply map_ext. intros j. unfold do_branch_fixed_array. apply (set_all_src d arr _ _ (fun i => i)).
Qed.
(** With distinct weights, few enough changes and no draw exactly on its threshold, the total
    weight is conserved. *)
Definition draws_generic (w us : list R) (min max : R) : Prop := generic w us (pairs_of w (num_to_change w min max)).
Theorem C45_fixed_weight_partial : forall {A} (d : A) w us arrays min max w' arrays', branch_fixed d w us arrays min max = Some (w', arrays') ->
  NoDup w -> (3 * num_to_change w min max <= length w)%nat -> draws_generic w us min max -> total w' = total w.
Proof.
  intros A d w us arrays min max w' arrays' H ND L3 G. destruct (fixed_map _ _ _ _ _ _ _ _ H) as [[_ [-> ->]]|[_ [L [-> _]]]]; [reflexivity|].
  set (m := num_to_change w min max) in *. destruct (pairs_ok w m L) as [PL [PD [PB PE]]]. rewrite total_map, total_at.
  pose proof (fixed_formula w (fun _ => 1) (pairs_of w m) (largest w m) us PD PB (proj1 (largest_ok w m)) (proj2 (largest_ok w m))) as F.
  rewrite gain_one in F. rewrite (sum_ext _ (fun i => do_branch_fixed_weight w us (pairs_of w m) (largest w m) i * _) (do_branch_fixed_weight w us (pairs_of w m) (largest w m))) in F.
  - rewrite F; [rewrite Rplus_0_r; apply sum_ext; intros; ring|rewrite largest_length, PL by lia; auto|exact G|].
    intros i I J. apply (each_ends _ (removed_end w)) in J. rewrite PE in J. exact (no_overlap w m i ND L3 I J).
  - intros i _. assert (O : forall idx vals, (forall v, In v vals -> v = 1) -> set_all (fun _ : nat => 1) idx vals i = 1).
    { assert (O' : forall idx (f : nat -> R) vals, (forall j, f j = 1) -> (forall v, In v vals -> v = 1) -> set_all f idx vals i = 1).
      { induction idx as [|k idx IH]; intros f vals Hf Hv; [apply Hf|]. destruct vals as [|v vals]; [apply Hf|]. cbn [set_all]. apply IH; [|intros x X; apply Hv; right; auto]. intros j. unfold put. destruct (Nat.eqb j k); [apply Hv; left; auto|auto]. }
      intros idx vals. apply O'. auto. }
    rewrite O; [ring|]. intros v V. apply in_map_iff in V as [x [<- _]]. reflexivity.
Qed.
(** ... and every observable is unbiased. *)
Theorem C45_fixed_unbiased_partial : forall w a min max, (forall x, In x w -> 0 < x) -> NoDup w -> length a = length w -> (3 * num_to_change w min max <= length w)%nat ->
  mean (length w) (fun us => observed (branch_fixed 0 w us [a] min max)) (weighted w a).
Proof.
  intros w a min max P ND LA L3. set (m := num_to_change w min max) in *. assert (L : (2 * m <= length w)%nat) by lia. destruct (pairs_ok w m L) as [PL [PD [PB PE]]].
  apply (gain_mean w (fun i => nth i a 0)) with (ps := if Nat.eqb m 0 then [] else pairs_of w m).
  - intros i I. apply P, nth_In, I.
  - destruct (Nat.eqb m 0); [cbn; lia|rewrite PL; lia].
  - destruct (Nat.eqb m 0); [intros i []|exact PB].
  - intros us LU IU G. unfold branch_fixed. fold m. destruct (Nat.eqb_spec m 0) as [Z|Z]; [cbn; ring|]. destruct (Nat.ltb_spec (length w) (2 * m)) as [|_]; [lia|]. cbn [observed map].
    rewrite weighted_map, sum_seq. fold (pairs_of w m). rewrite weighted_at by auto.
    apply (fixed_formula w (fun i => nth i a 0) (pairs_of w m) (largest w m) us PD PB (proj1 (largest_ok w m)) (proj2 (largest_ok w m))); [rewrite largest_length, PL by lia; auto|exact G|].
    intros i I J. apply (each_ends _ (removed_end w)) in J. rewrite PE in J. exact (no_overlap w m i ND L3 I J).
Qed.

(** Every walker below min is merged and every walker above max is split. *)
Lemma low_in w b k i : (i < length w)%nat -> at_ w i < b -> (count (fun x => rltb x b) w <= k)%nat -> In i (smallest w k).
Proof.
  intros I W C. unfold smallest. set (l := order _ _). assert (M : In i l) by (eapply Permutation_in; [apply Permutation_sym, order_perm|apply in_seq; lia]).
  apply In_nth with (d := 0%nat) in M as [q [Q E]]. assert (F : (q < length (filter (fun i => rltb (at_ w i) b) l))%nat) by (apply (sorted_filter (at_ w) b l); [apply order_sorted|exact Q|rewrite E; exact W]).
  unfold l in F. rewrite count_order in F. rewrite <- E. rewrite <- (firstn_nth 0%nat l k q) by lia. apply nth_In. rewrite firstn_length. lia.
Qed.
Lemma count_above w b : length (filter (fun i => rltb (- at_ w i) (- b)) (seq 0 (length w))) = count (fun x => rltb b x) w.
Proof.
  unfold count. rewrite (list_map_nth w) at 2. generalize (seq 0 (length w)). induction l as [|x l IH]; [reflexivity|]. cbn [map filter]. unfold at_ in *.
  replace (rltb (- nth x w 0) (- b)) with (rltb b (nth x w 0)) by (unfold rltb; destruct (Rlt_dec b (nth x w 0)), (Rlt_dec (- nth x w 0) (- b)); auto; lra). destruct (rltb b (nth x w 0)); cbn [length]; auto.
Qed.
Lemma high_in w b k i : (i < length w)%nat -> b < at_ w i -> (count (fun x => rltb b x) w <= k)%nat -> In i (largest w k).
Proof.
  intros I W C. unfold largest. set (l := order _ _). assert (M : In i l) by (eapply Permutation_in; [apply Permutation_sym, order_perm|apply in_seq; lia]).
  apply In_nth with (d := 0%nat) in M as [q [Q E]]. assert (F : (q < length (filter (fun i => rltb (- at_ w i) (- b)) l))%nat) by (apply (sorted_filter (fun i => - at_ w i) (- b) l); [apply desc_sorted|exact Q|rewrite E; lra]).
  unfold l in F. rewrite (filter_perm _ _ _ (order_perm _ (length w))), count_above in F. rewrite <- E. rewrite <- (firstn_nth 0%nat l k q) by lia. apply nth_In. rewrite firstn_length. lia.
Qed.
Lemma ends_split w : forall ps us i, generic w us ps -> In i (ends ps) -> In i (each (kept w) us ps) \/ In i (each (removed w) us ps).
Proof.
  induction ps as [|p ps IH]; intros us i G I; [destruct I|]. destruct G as [G1 G2]. rewrite ends_cons in I. cbn [each]. destruct (kept_removed w _ _ G1) as [[-> ->]|[-> ->]]; destruct I as [<-|[<-|I]]; cbn; auto; destruct (IH _ _ G2 I); auto.
Qed.
Lemma set_all_in {T} : forall idx (f : nat -> T) vals i, length idx = length vals -> In i idx -> In (set_all f idx vals i) vals.
Proof.
  induction idx as [|k idx IH]; intros f vals i L I; [destruct I|]. destruct vals as [|v vals]; [discriminate|]. cbn [set_all]. destruct (in_dec Nat.eq_dec i idx) as [J|J]; [right; apply IH; auto|].
  rewrite set_all_other by exact J. destruct I as [->|I]; [|contradiction]. left. rewrite put_same. reflexivity.
Qed.
Lemma set_all_nth {T} (d : T) : forall idx (f : nat -> T) vals k, length idx = length vals -> NoDup idx -> (k < length idx)%nat -> set_all f idx vals (nth k idx 0%nat) = nth k vals d.
Proof.
  induction idx as [|x idx IH]; intros f vals k L D K; [cbn in K; lia|]. destruct vals as [|v vals]; [discriminate|]. inversion_clear D as [|? ? D1 D2]. destruct k as [|k]; cbn [set_all nth].
  - rewrite set_all_other by exact D1. apply put_same.
  - apply IH; auto. cbn in K. lia.
Qed.
Lemma add_all_more : forall idx f vals i, length idx = length vals -> (forall v, In v vals -> 0 < v) -> f i <= add_all f idx vals i /\ (In i idx -> f i < add_all f idx vals i).
Proof.
  induction idx as [|k idx IH]; intros f vals i L P; [split; [cbn; lra|intros []]|]. destruct vals as [|v vals]; [discriminate|]. cbn [add_all].
  destruct (IH (put f k (f k + v)) vals i) as [A B]; [auto|intros x X; apply P; right; exact X|]. pose proof (P v (or_introl eq_refl)) as V.
  assert (Q : f i <= put f k (f k + v) i /\ (k = i -> f i < put f k (f k + v) i)). { destruct (Nat.eq_dec k i) as [->|N]; [rewrite put_same; lra|rewrite put_other by auto; split; [lra|intros; contradiction]]. }
  destruct Q as [Q1 Q2]. split; [lra|]. intros [E|I]; [specialize (Q2 E); lra|specialize (B I); lra].
Qed.
(** A walker below min either absorbs another walker's weight or is overwritten by another one. *)
Theorem C45_fixed_low_merged_partial : forall w us min max w' ids, branch_fixed 0%nat w us [seq 0 (length w)] min max = Some (w', [ids]) ->
  (forall x, In x w -> 0 < x) -> NoDup w -> (3 * num_to_change w min max <= length w)%nat -> draws_generic w us min max ->
  forall i, (i < length w)%nat -> at_ w i < min -> at_ w i < at_ w' i \/ nth i ids 0%nat <> i.
Proof.
  intros w us min max w' ids H P ND L3 G i I W. assert (C : (1 <= count (fun x => rltb x min) w <= 2 * num_to_change w min max)%nat).
  { split; [unfold count; destruct (filter (fun x => rltb x min) w) eqn:F; [|cbn; lia]; assert (X : In (at_ w i) []) by (rewrite <- F; apply filter_In; split; [apply nth_In, I|apply rltb_true, W]); destruct X|]. unfold num_to_change. pose proof (Nat.div_mod (count (fun x => rltb x min) w + 1) 2 ltac:(lia)). pose proof (Nat.mod_upper_bound (count (fun x => rltb x min) w + 1) 2 ltac:(lia)). lia. }
  destruct (fixed_map _ _ _ _ _ _ _ _ H) as [[Z _]|[_ [L [EW EA]]]]; [rewrite Z in C; lia|]. unfold draws_generic in G. set (m := num_to_change w min max) in *. destruct (pairs_ok w m L) as [PL [PD [PB PE]]].
  assert (S : In i (smallest w (2 * m))) by (eapply low_in; eauto; lia). assert (NB : ~ In i (largest w m)) by (intros X; exact (no_overlap w m i ND L3 X S)).
  pose proof S as S'. rewrite <- PE in S'. destruct (ends_split w _ us i G S') as [K|R].
  - left. subst w'. unfold at_ at 2. rewrite nth_map_seq by exact I. unfold do_branch_fixed_weight. rewrite set_all_other by (apply kept_not_removed; auto). rewrite set_all_other by exact NB.
    apply add_all_more; [rewrite map_length, !each_length; reflexivity| |exact K]. intros v V. apply in_map_iff in V as [r [<- V]]. apply P, nth_In, PB. eapply (each_ends _ (removed_end w)); eauto.
  - right. cbn [map] in EA. assert (EI : ids = map (do_branch_fixed_array 0%nat w us (pairs_of w m) (largest w m) (seq 0 (length w))) (seq 0 (length w))) by congruence. rewrite EI, nth_map_seq by exact I. unfold do_branch_fixed_array. intros X.
    pose proof (set_all_in (each (removed w) us (pairs_of w m)) (fun i => nth i (seq 0 (length w)) 0%nat) (map (fun i => nth i (seq 0 (length w)) 0%nat) (largest w m)) i ltac:(rewrite map_length, each_length, PL, largest_length by lia; reflexivity) R) as Q. rewrite X in Q.
    apply in_map_iff in Q as [j [E J]]. rewrite seq_nth in E by (apply (proj2 (largest_ok w m)), J). cbn in E. subst j. contradiction.
Qed.
(** A walker above max is halved, and the other half is a copy of it that replaces a removed walker. *)
Theorem C45_fixed_high_split_partial : forall w us min max w' ids, branch_fixed 0%nat w us [seq 0 (length w)] min max = Some (w', [ids]) ->
  NoDup w -> (3 * num_to_change w min max <= length w)%nat -> draws_generic w us min max ->
  forall i, (i < length w)%nat -> max < at_ w i -> exists j, j <> i /\ (j < length w)%nat /\ nth i ids 0%nat = i /\ nth j ids 0%nat = i /\ at_ w' i = at_ w i / 2 /\ at_ w' j = at_ w i / 2.
Proof.
  intros w us min max w' ids H ND L3 G i I W. assert (C : (1 <= count (fun x => rltb max x) w <= num_to_change w min max)%nat).
  { split; [unfold count; destruct (filter (fun x => rltb max x) w) eqn:F; [|cbn; lia]; assert (X : In (at_ w i) []) by (rewrite <- F; apply filter_In; split; [apply nth_In, I|apply rltb_true, W]); destruct X|]. unfold num_to_change. lia. }
  destruct (fixed_map _ _ _ _ _ _ _ _ H) as [[Z _]|[_ [L [EW EA]]]]; [rewrite Z in C; lia|]. unfold draws_generic in G. set (m := num_to_change w min max) in *. destruct (pairs_ok w m L) as [PL [PD [PB PE]]].
  assert (B : In i (largest w m)) by (eapply high_in; eauto; lia). assert (NS : ~ In i (ends (pairs_of w m))) by (rewrite PE; intros X; exact (no_overlap w m i ND L3 B X)).
  assert (NR : ~ In i (each (removed w) us (pairs_of w m))) by (intros X; apply NS; eapply (each_ends _ (removed_end w)); eauto). assert (NK : ~ In i (each (kept w) us (pairs_of w m))) by (intros X; apply NS; eapply (each_ends _ (kept_end w)); eauto).
  cbn [map] in EA. assert (EI : ids = map (do_branch_fixed_array 0%nat w us (pairs_of w m) (largest w m) (seq 0 (length w))) (seq 0 (length w))) by congruence. clear EA.
  pose proof (In_nth _ _ 0%nat B) as [k [K E]]. assert (LB : length (largest w m) = m) by (apply largest_length; lia). rewrite LB in K.
  set (rs := each (removed w) us (pairs_of w m)) in *. assert (LR : length rs = m) by (unfold rs; rewrite each_length; exact PL). assert (DR : NoDup rs) by (apply each_NoDup; auto; apply removed_end).
  exists (nth k rs 0%nat). assert (JR : In (nth k rs 0%nat) rs) by (apply nth_In; lia). assert (JB : (nth k rs 0 < length w)%nat) by (apply PB; eapply (each_ends _ (removed_end w)); exact JR).
  assert (W2 : forall f, set_all f (largest w m) (map (fun g => add_all (at_ w) (each (kept w) us (pairs_of w m)) (map (at_ w) rs) g / 2) (largest w m)) i = at_ w i / 2).
  { intros f. rewrite <- E at 1. rewrite (set_all_nth 0) by (try (rewrite map_length; reflexivity); try apply largest_ok; lia). rewrite (nth_indep _ 0 (add_all (at_ w) (each (kept w) us (pairs_of w m)) (map (at_ w) rs) 0%nat / 2)) by (rewrite map_length; lia).
    rewrite (map_nth (fun g => add_all (at_ w) (each (kept w) us (pairs_of w m)) (map (at_ w) rs) g / 2)), E, add_all_other by exact NK. reflexivity. }
  split; [intros X; apply NR; rewrite <- X; exact JR|]. split; [exact JB|]. subst ids w'. split; [|split; [|split]].
  - rewrite nth_map_seq by exact I. unfold do_branch_fixed_array. fold rs. rewrite set_all_other by exact NR. rewrite seq_nth by exact I. reflexivity.
  - rewrite nth_map_seq by exact JB. unfold do_branch_fixed_array. fold rs. rewrite (set_all_nth 0%nat) by (try (rewrite map_length); auto; lia).
    rewrite (nth_indep _ 0%nat (nth 0 (seq 0 (length w)) 0%nat)) by (rewrite map_length; lia). rewrite (map_nth (fun i => nth i (seq 0 (length w)) 0%nat)), E. rewrite seq_nth by exact I. reflexivity.
  - unfold at_ at 1. rewrite nth_map_seq by exact I. unfold do_branch_fixed_weight. fold rs. rewrite (set_all_other rs) by exact NR. apply W2.
  - unfold at_ at 1. rewrite nth_map_seq by exact JB. unfold do_branch_fixed_weight. fold rs. rewrite (set_all_nth 0 rs) by (try (rewrite map_length); auto; lia).
    match goal with |- nth k (map ?f _) 0 = _ => rewrite (nth_indep _ 0 (f 0%nat)) by (rewrite map_length; lia); rewrite (map_nth f), E end. apply W2.
Qed.

(** ** Counterexamples to the full property *)
Ltac decide_r := repeat (match goal with
  | |- context [Rlt_dec ?a ?b] => destruct (Rlt_dec a b); try lra
  | |- context [Rle_dec ?a ?b] => destruct (Rle_dec a b); try lra end; cbn).
(** Tied weights: walker 0 is both one of the two smallest and the largest.  When the draw keeps
    the small walker 1, half a walker is lost. *)
Theorem C45_fixed_tie_refuted : exists w us w' a', (forall x, In x w -> 0 < x) /\ (3 * num_to_change w (3 / 10) 2 <= length w)%nat /\ draws_generic w us (3 / 10) 2 /\
  branch_fixed 0 w us [w] (3 / 10) 2 = Some (w', a') /\ total w' <> total w.
Proof.
  exists [1; 1 / 10; 1], [0]. eexists. eexists. split; [intros x [<-|[<-|[<-|[]]]]; lra|].
  assert (N : num_to_change [1; 1 / 10; 1] (3 / 10) 2 = 1%nat).
  { unfold num_to_change, count. cbn [filter]. unfold rltb. decide_r. reflexivity. }
  assert (S : pairs_of [1; 1 / 10; 1] 1 = [(1%nat, 0%nat)]).
  { unfold pairs_of, smallest, order. cbn. unfold rleb, at_. cbn. decide_r. reflexivity. }
  assert (B : largest [1; 1 / 10; 1] 1 = [0%nat]).
  { unfold largest, order. cbn. unfold rleb, at_. cbn. decide_r; reflexivity. }
  split; [rewrite N; cbn; lia|]. split; [unfold draws_generic; rewrite N, S; cbn; unfold threshold, at_; cbn; split; [lra|exact I]|].
  split.
  - unfold branch_fixed. rewrite N. cbn [Nat.eqb length Nat.ltb Nat.leb Nat.mul Nat.add]. change (pair_up (smallest [1; 1 / 10; 1] 2)) with (pairs_of [1; 1 / 10; 1] 1). rewrite S, B. reflexivity.
  - cbn [length seq map]. unfold do_branch_fixed_weight. cbn. unfold kept, removed, threshold, put, at_, rltb. cbn. decide_r.
Qed.
Definition w3 : list R := [1 / 10; 1; 3].
Lemma w3_num : num_to_change w3 (3 / 10) 2 = 1%nat.
Proof. unfold num_to_change, count, w3. cbn [filter]. unfold rltb. decide_r. reflexivity. Qed.
Lemma w3_pairs : pairs_of w3 1 = [(0%nat, 1%nat)].
Proof. unfold pairs_of, smallest, order, w3. cbn. unfold rleb, at_. cbn. decide_r; reflexivity. Qed.
Lemma w3_big : largest w3 1 = [2%nat].
Proof. unfold largest, order, w3. cbn. unfold rleb, at_. cbn. decide_r; reflexivity. Qed.
Lemma w3_run us : branch_fixed 0 w3 us [w3] (3 / 10) 2 = Some (map (do_branch_fixed_weight w3 us [(0, 1)%nat] [2%nat]) [0; 1; 2]%nat, [map (do_branch_fixed_array 0 w3 us [(0, 1)%nat] [2%nat] w3) [0; 1; 2]%nat]).
Proof. unfold branch_fixed. rewrite w3_num. cbn [Nat.eqb length Nat.ltb Nat.leb Nat.mul Nat.add w3]. change (pair_up (smallest w3 2)) with (pairs_of w3 1). fold w3. rewrite w3_pairs, w3_big. reflexivity. Qed.
(** A draw equal to its threshold keeps and removes the same walker: its weight is lost. *)
Theorem C45_fixed_edge_refuted : exists w' a', NoDup w3 /\ (3 * num_to_change w3 (3 / 10) 2 <= length w3)%nat /\ branch_fixed 0 w3 [threshold w3 (0, 1)%nat] [w3] (3 / 10) 2 = Some (w', a') /\ total w' <> total w3.
Proof.
  eexists. eexists. split; [unfold w3; repeat constructor; cbn; intros H; repeat destruct H as [H|H]; lra|]. split; [rewrite w3_num; cbn; lia|]. split; [apply w3_run|].
  cbn [map]. unfold do_branch_fixed_weight, w3. cbn. unfold kept, removed, threshold, put, at_, rltb. cbn. decide_r.
Qed.
(** The same population with any other draw meets the hypotheses of the theorems above. *)
Example fixed_hypotheses : NoDup w3 /\ (3 * num_to_change w3 (3 / 10) 2 <= length w3)%nat /\ draws_generic w3 [1 / 2] (3 / 10) 2 /\ exists w' a', branch_fixed 0 w3 [1 / 2] [w3] (3 / 10) 2 = Some (w', a') /\ w' = [3 / 2; 1 + 1 / 10; 3 / 2].
Proof.
  split; [unfold w3; repeat constructor; cbn; intros H; repeat destruct H as [H|H]; lra|]. split; [rewrite w3_num; cbn; lia|].
  split; [unfold draws_generic; rewrite w3_num, w3_pairs; cbn; unfold threshold, at_, w3; cbn; split; [lra|exact I]|].
  eexists. eexists. split; [apply w3_run|]. cbn [map]. unfold do_branch_fixed_weight, w3. cbn. unfold kept, removed, threshold, put, at_, rltb. cbn. decide_r. repeat f_equal; lra.
Qed.
(** Two walkers: the large one is also in the pair; when the draw removes it, weight appears. *)
Theorem C45_fixed_overlap_refuted : exists w' a', branch_fixed 0 [1 / 10; 3] [0] [[1 / 10; 3]] (3 / 10) 2 = Some (w', a') /\ total w' <> total [1 / 10; 3].
Proof.
  assert (N : num_to_change [1 / 10; 3] (3 / 10) 2 = 1%nat) by (unfold num_to_change, count; cbn [filter]; unfold rltb; decide_r; reflexivity).
  assert (S : pairs_of [1 / 10; 3] 1 = [(0%nat, 1%nat)]) by (unfold pairs_of, smallest, order; cbn; unfold rleb, at_; cbn; decide_r; reflexivity).
  assert (B : largest [1 / 10; 3] 1 = [1%nat]) by (unfold largest, order; cbn; unfold rleb, at_; cbn; decide_r; reflexivity).
  eexists. eexists. split.
  - unfold branch_fixed. rewrite N. cbn [Nat.eqb length Nat.ltb Nat.leb Nat.mul Nat.add]. change (pair_up (smallest [1 / 10; 3] 2)) with (pairs_of [1 / 10; 3] 1). rewrite S, B. reflexivity.
  - cbn [length seq map]. unfold do_branch_fixed_weight. cbn. unfold kept, removed, threshold, put, at_, rltb. cbn. decide_r.
Qed.
(** More than half of the walkers above max: the call raises. *)
Theorem C45_fixed_crash_refuted : forall w us min max, (length w < 2 * count (fun x => rltb max x) w)%nat -> branch_fixed 0 w us [w] min max = None.
Proof.
  intros w us min max H. unfold branch_fixed, num_to_change. set (c := count _ w) in *. set (m := Nat.max _ c). assert (c <= m)%nat by (unfold m; lia).
  destruct (Nat.eqb_spec m 0); [lia|]. destruct (Nat.ltb_spec (length w) (2 * m)); [reflexivity|lia].
Qed.
(** A population for the variable-size theorems: two small walkers, a normal and a large one. *)
Example vary_run : branch_vary 0 [1 / 10; 1 / 5; 1; 3] [1 / 2] [[10; 20; 30; 40]] (3 / 10) 2 <> None.
Proof. apply C45_vary_succeeds. unfold count. cbn [filter]. unfold rltb. decide_r; cbn; lia. Qed.
Print Assumptions C45_vary_unbiased.
Print Assumptions C45_fixed_unbiased_partial.
