(** C30: clipping of observables. *)
From Coq Require Import Reals List Bool Arith String Lra Lia Permutation Sorting.Sorted.
From Verif Require Import Common Est_Model Est_Props.
Import ListNotations.
Open Scope R_scope.
Open Scope list_scope.
Local Notation length := List.length.

(** *** Sorting *)
Lemma insert_perm x l : Permutation (x :: l) (insert x l).
Proof.
  induction l as [|y l IH]; simpl; auto. destruct (Rle_dec x y); auto.
  eapply perm_trans; [apply perm_swap|]. auto.
Qed.
Lemma sort_perm l : Permutation l (sort l).
Proof.
  induction l; simpl; auto. eapply perm_trans; [|apply insert_perm]. auto.
Qed.
Lemma sort_length l : length (sort l) = length l.
Proof. symmetry. apply Permutation_length. apply sort_perm. Qed.
Lemma insert_sorted x l : StronglySorted Rle l -> StronglySorted Rle (insert x l).
Proof.
  induction 1 as [|y l S IH F]; simpl; [repeat constructor|].
  destruct (Rle_dec x y).
  - constructor; [constructor; auto|]. constructor; auto.
    eapply Forall_impl; [|exact F]. intros; lra.
  - constructor; auto. eapply Permutation_Forall; [apply insert_perm|]. constructor; auto. lra.
Qed.
Lemma sort_sorted l : StronglySorted Rle (sort l).
Proof. induction l; simpl; [constructor|apply insert_sorted; auto]. Qed.
Lemma sorted_unique a b : StronglySorted Rle a -> StronglySorted Rle b -> Permutation a b -> a = b.
Proof.
  intros SA. revert b. induction SA as [|x a SA IH FA]; intros b SB P.
  - apply Permutation_nil in P. auto.
  - destruct SB as [|y b SB FB]; [symmetry in P; apply Permutation_nil in P; discriminate|].
    assert (x = y).
    { assert (Hx : In x (y :: b)) by (eapply Permutation_in; [exact P|left; auto]).
      assert (Hy : In y (x :: a)) by (eapply Permutation_in; [symmetry; exact P|left; auto]).
      destruct Hx as [|Hx]; auto. destruct Hy as [|Hy]; auto.
      rewrite Forall_forall in FA, FB. specialize (FA _ Hy). specialize (FB _ Hx). lra. }
    subst y. f_equal. apply IH; auto. eapply Permutation_cons_inv; eauto.
Qed.
Lemma sort_perm_eq a b : Permutation a b -> sort a = sort b.
Proof.
  intros P. apply sorted_unique; try apply sort_sorted.
  eapply perm_trans; [symmetry; apply sort_perm|]. eapply perm_trans; [exact P|apply sort_perm].
Qed.
(** An increasing map commutes with sorting. *)
Lemma sort_shift c l : sort (map (fun x => x + c) l) = map (fun x => x + c) (sort l).
Proof.
  apply sorted_unique.
  - apply sort_sorted.
  - pose proof (sort_sorted l) as S. induction S as [|x a S IH F]; simpl; constructor; auto.
    apply Forall_map. eapply Forall_impl; [|exact F]. simpl. intros; lra.
  - eapply perm_trans; [symmetry; apply sort_perm|]. apply Permutation_map. apply sort_perm.
Qed.

Lemma sorted_nth s : StronglySorted Rle s -> forall i j d, (i <= j < length s)%nat -> nth i s d <= nth j s d.
Proof.
  induction 1 as [|x s S IH F]; intros i j d H; simpl in *; [lia|].
  destruct i as [|i], j as [|j]; try lia; try lra.
  - rewrite Forall_forall in F. apply F. apply nth_In. lia.
  - apply IH. lia.
Qed.

(** *** Quantiles *)
(** Linear interpolation at position [k (n-1) / 4] of the sorted values. *)
Lemma quantile_bracket k l : l <> [] -> (k <= 4)%nat ->
  let s := sort l in let h := (k * (length l - 1))%nat in
  let lo := nth (h / 4) s 0 in let hi := nth (h / 4 + 1) s lo in
  (h / 4 < length s)%nat /\ lo <= quantile4 k l <= hi /\
  (quantile4 k l = lo \/ ((h / 4 + 1 < length s)%nat /\ h mod 4 <> 0%nat)).
Proof.
  intros NE K. cbv zeta. set (h := (k * (length l - 1))%nat).
  assert (L : (0 < length l)%nat) by (destruct l; [congruence|simpl; lia]).
  assert (H4 : (h / 4 <= length l - 1)%nat).
  { apply Nat.div_le_upper_bound; [lia|]. unfold h. nia. }
  assert (HL : (h / 4 < length (sort l))%nat) by (rewrite sort_length; lia).
  set (lo := nth (h / 4) (sort l) 0). set (hi := nth (h / 4 + 1) (sort l) lo).
  assert (LH : lo <= hi).
  { unfold hi. destruct (Nat.lt_ge_cases (h / 4 + 1) (length (sort l))) as [C|C].
    - unfold lo at 1. rewrite (nth_indep _ lo 0) by auto. apply sorted_nth; [apply sort_sorted|lia].
    - rewrite nth_overflow by auto. lra. }
  assert (F0 : 0 <= INR (h mod 4) / 4 <= 3 / 4).
  { pose proof (Nat.mod_upper_bound h 4 ltac:(lia)). pose proof (pos_INR (h mod 4)).
    assert (I3 : INR (h mod 4) <= INR 3) by (apply le_INR; lia).
    replace (INR 3) with 3 in I3 by (simpl; lra). lra. }
  split; auto. split.
  - unfold quantile4. fold h. cbv zeta. fold lo. fold hi. nra.
  - destruct (Nat.lt_ge_cases (h / 4 + 1) (length (sort l))) as [C|C].
    + destruct (Nat.eq_dec (h mod 4) 0) as [Z|Z]; [|right; auto].
      left. unfold quantile4. fold h. cbv zeta. rewrite Z. change (INR 0) with 0. fold lo. lra.
    + left. unfold quantile4. fold h. cbv zeta. fold lo. fold hi.
      replace hi with lo; [lra|]. unfold hi. rewrite nth_overflow; auto.
Qed.

(** *** Specification of a quantile: not too many values on either side.  [ceil4 a] is
    a/4 rounded up. *)
Definition ceil4 (a : nat) : nat := ((a + 3) / 4)%nat.
Definition count_if (p : R -> Prop) (dec : forall x, {p x} + {~ p x}) (l : list R) : nat :=
  length (filter (fun x => if dec x then true else false) l).
Definition count_below (q : R) (l : list R) := count_if (fun x => x < q) (fun x => Rlt_dec x q) l.
Definition count_above (q : R) (l : list R) := count_if (fun x => q < x) (fun x => Rlt_dec q x) l.

Lemma count_perm p dec a b : Permutation a b -> count_if p dec a = count_if p dec b.
Proof.
  unfold count_if. induction 1; simpl; auto; try lia.
  - destruct (dec x); simpl; auto.
  - destruct (dec x), (dec y); simpl; auto.
Qed.
Lemma count_le_firstn p dec j s : (forall x, In x (skipn j s) -> ~ p x) -> (count_if p dec s <= j)%nat.
Proof.
  intros H. unfold count_if. rewrite <- (firstn_skipn j s), filter_app, app_length.
  assert (E : filter (fun x => if dec x then true else false) (skipn j s) = []).
  { induction (skipn j s) as [|x t IH]; auto. simpl. destruct (dec x); [exfalso; eapply H; [left; reflexivity|auto]|].
    apply IH. intros y Hy. apply H. right; auto. }
  rewrite E. simpl. pose proof (firstn_le_length j s).
  assert (FL : forall (f : R -> bool) l, (length (filter f l) <= length l)%nat).
  { clear. induction l; simpl; auto. destruct (f a); simpl; lia. }
  specialize (FL (fun x => if dec x then true else false) (firstn j s)). lia.
Qed.
Lemma count_le_skipn p dec j s : (forall x, In x (firstn j s) -> ~ p x) -> (count_if p dec s <= length s - j)%nat.
Proof.
  intros H. unfold count_if. rewrite <- (firstn_skipn j s) at 1. rewrite filter_app, app_length.
  assert (E : filter (fun x => if dec x then true else false) (firstn j s) = []).
  { induction (firstn j s) as [|x t IH]; auto. simpl. destruct (dec x); [exfalso; eapply H; [left; reflexivity|auto]|].
    apply IH. intros y Hy. apply H. right; auto. }
  rewrite E. simpl.
  assert (FL : forall (f : R -> bool) l, (length (filter f l) <= length l)%nat).
  { clear. induction l; simpl; auto. destruct (f a); simpl; lia. }
  specialize (FL (fun x => if dec x then true else false) (skipn j s)). rewrite skipn_length in FL. lia.
Qed.
Lemma In_skipn_nth (s : list R) j x : In x (skipn j s) -> exists i, (j <= i < length s)%nat /\ x = nth i s 0.
Proof.
  intros H. apply (In_nth _ _ 0) in H as (i & Hi & <-). rewrite skipn_length in Hi.
  exists (j + i)%nat. split; [lia|]. clear Hi. revert s. induction j; intros s; auto.
  destruct s as [|y s]; [destruct i; reflexivity|]. simpl. apply IHj.
Qed.
Lemma In_firstn_nth (s : list R) j x : In x (firstn j s) -> exists i, (i < j)%nat /\ (i < length s)%nat /\ x = nth i s 0.
Proof.
  intros H. apply (In_nth _ _ 0) in H as (i & Hi & <-). rewrite firstn_length in Hi.
  exists i. split; [lia|]. split; [lia|]. revert s Hi. revert j. induction i; intros [|j] [|y s] Hi; simpl in *; try lia; auto.
  apply IHi. lia.
Qed.

(** The quartiles and the median split the values as they should. *)
Theorem C30_quantile_splits : forall k l, l <> [] -> (k <= 4)%nat ->
  (count_below (quantile4 k l) l <= ceil4 (k * (length l - 1)))%nat /\
  (count_above (quantile4 k l) l <= ceil4 ((4 - k) * (length l - 1)))%nat.
Proof.
  intros k l NE K. pose proof (quantile_bracket k l NE K) as B. cbv zeta in B.
  set (h := (k * (length l - 1))%nat) in *. set (s := sort l) in *.
  destruct B as (HL & [B1 B2] & B3). set (q := quantile4 k l) in *.
  assert (Ls : length s = length l) by apply sort_length.
  assert (SS : StronglySorted Rle s) by apply sort_sorted.
  assert (L0 : (0 < length l)%nat) by (destruct l; [congruence|simpl; lia]).
  unfold count_below, count_above.
  rewrite !(count_perm _ _ l s) by apply sort_perm.
  pose proof (Nat.div_mod h 4 ltac:(lia)) as DM. pose proof (Nat.mod_upper_bound h 4 ltac:(lia)) as MU.
  assert (H4 : ((4 - k) * (length l - 1) + h = 4 * (length l - 1))%nat) by (unfold h; nia).
  split.
  - (* below *)
    destruct B3 as [E|[C M]].
    + eapply Nat.le_trans; [apply (count_le_firstn _ _ (h / 4))|].
      * intros x Hx. apply In_skipn_nth in Hx as (i & Hi & ->). rewrite E.
        pose proof (sorted_nth s SS (h / 4) i 0 ltac:(lia)). lra.
      * unfold ceil4. apply Nat.div_le_mono; lia.
    + eapply Nat.le_trans; [apply (count_le_firstn _ _ (h / 4 + 1))|].
      * intros x Hx. apply In_skipn_nth in Hx as (i & Hi & ->).
        rewrite (nth_indep s _ 0) in B2 by auto.
        pose proof (sorted_nth s SS (h / 4 + 1) i 0 ltac:(lia)). lra.
      * unfold ceil4. apply Nat.div_le_lower_bound; lia.
  - (* above *)
    assert (G : (length s - (h / 4 + 1) <= ceil4 ((4 - k) * (length l - 1)))%nat).
    { unfold ceil4. apply Nat.div_le_lower_bound; lia. }
    eapply Nat.le_trans; [apply (count_le_skipn _ _ (h / 4 + 1))|exact G].
    intros x Hx. apply In_firstn_nth in Hx as (i & Hi & Hi2 & ->).
    pose proof (sorted_nth s SS i (h / 4) 0 ltac:(lia)). lra.
Qed.

Lemma quantile_mono k1 k2 l : (k1 <= k2 <= 4)%nat -> quantile4 k1 l <= quantile4 k2 l.
Proof.
  intros [K1 K2]. destruct l as [|x0 l0].
  { unfold quantile4. simpl. rewrite !Nat.mul_0_r. simpl. lra. }
  set (l := x0 :: l0). assert (NE : l <> []) by discriminate.
  set (h1 := (k1 * (length l - 1))%nat). set (h2 := (k2 * (length l - 1))%nat).
  assert (H : (h1 <= h2)%nat) by (unfold h1, h2; nia).
  pose proof (quantile_bracket k1 l NE ltac:(lia)) as A. pose proof (quantile_bracket k2 l NE K2) as B.
  cbv zeta in A, B. fold h1 in A. fold h2 in B. destruct A as (A0 & [A1 A2] & A3). destruct B as (B0 & [B1 B2] & B3).
  set (s := sort l) in *.
  destruct (Nat.eq_dec (h1 / 4) (h2 / 4)) as [E|N].
  - unfold quantile4. fold h1 h2. cbv zeta. fold s. rewrite <- E.
    set (lo := nth (h1 / 4) s 0). set (hi := nth (h1 / 4 + 1) s lo).
    assert (LH : lo <= hi) by (unfold lo, hi; unfold lo in *; lra).
    assert (M : INR (h1 mod 4) <= INR (h2 mod 4)).
    { apply le_INR. pose proof (Nat.div_mod h1 4 ltac:(lia)). pose proof (Nat.div_mod h2 4 ltac:(lia)). lia. }
    nra.
  - assert (D : (h1 / 4 + 1 <= h2 / 4)%nat) by (pose proof (Nat.div_le_mono h1 h2 4 ltac:(lia) H); lia).
    rewrite (nth_indep s _ 0) in A2 by lia.
    pose proof (sorted_nth s (sort_sorted l) (h1 / 4 + 1) (h2 / 4) 0 ltac:(lia)). lra.
Qed.

Lemma nth_map_shift c s i d : nth i (map (fun x => x + c) s) (d + c) = nth i s d + c.
Proof. apply (map_nth (fun x => x + c)). Qed.
Lemma quantile_shift k l c : l <> [] -> (k <= 4)%nat -> quantile4 k (map (fun x => x + c) l) = quantile4 k l + c.
Proof.
  intros NE K. pose proof (quantile_bracket k l NE K) as B. cbv zeta in B. destruct B as (C & _).
  unfold quantile4. cbv zeta. rewrite map_length, sort_shift.
  set (h := (k * (length l - 1))%nat) in *. set (s := sort l) in *.
  rewrite (nth_indep (map _ s) 0 (0 + c)) by (rewrite map_length; auto). rewrite nth_map_shift.
  rewrite nth_map_shift. lra.
Qed.
Lemma quantile_perm k a b : Permutation a b -> quantile4 k a = quantile4 k b.
Proof. intros P. unfold quantile4. rewrite (sort_perm_eq a b P), (Permutation_length P). auto. Qed.
Lemma quantile_nonneg k l : (k <= 4)%nat -> Forall (fun x => 0 <= x) l -> 0 <= quantile4 k l.
Proof.
  intros K F. destruct l as [|x l].
  { unfold quantile4. simpl. rewrite !Nat.mul_0_r. simpl. lra. }
  pose proof (quantile_bracket k (x :: l) ltac:(discriminate) K) as B. cbv zeta in B.
  destruct B as (C & [B1 _] & _). eapply Rle_trans; [|exact B1].
  assert (F' : Forall (fun x => 0 <= x) (sort (x :: l))) by (eapply Permutation_Forall; [apply sort_perm|exact F]).
  rewrite Forall_forall in F'. apply F'. apply nth_In. exact C.
Qed.

(** *** The window *)
Definition window (m : clip_method) (scale : R) (values : list R) : option (R * R) :=
  match m with
  | NoClip => None
  | Iqr => Some (iqr_window scale values)
  | Mad => Some (mad_window scale values)
  end.

Lemma window_ordered m scale values w : 0 <= scale -> window m scale values = Some w -> fst w <= snd w.
Proof.
  intros S. destruct m; simpl; intros H; inversion H; subst; clear H; simpl.
  - pose proof (quantile_mono 1 3 values ltac:(lia)). nra.
  - assert (0 <= median (map (fun x => Rabs (x - median values)) values)).
    { apply quantile_nonneg; [lia|]. apply Forall_map. apply Forall_forall. intros. apply Rabs_pos. }
    nra.
Qed.

(** ** C30.  The window is the documented one, computed from the valid values of all
    devices; each device clips its walkers to that same window. *)
Theorem C30_same_window_everywhere : forall m scale layout shard,
  clip_shard m scale layout shard =
  match window m scale (valid (List.concat layout)) with
  | Some w => map (option_map (clip (fst w) (snd w))) shard
  | None => shard
  end.
Proof. intros [] scale layout shard; reflexivity. Qed.

Lemma clip_in lo hi x : lo <= hi -> lo <= clip lo hi x <= hi.
Proof. intros H. unfold clip, Rmin, Rmax. destruct (Rle_dec x lo), (Rle_dec _ hi); lra. Qed.
Lemma clip_id lo hi x : lo <= x <= hi -> clip lo hi x = x.
Proof. intros H. unfold clip, Rmin, Rmax. destruct (Rle_dec x lo); destruct (Rle_dec _ hi); lra. Qed.
Lemma clip_mono lo hi x y : x <= y -> clip lo hi x <= clip lo hi y.
Proof.
  intros H. unfold clip, Rmin, Rmax. destruct (Rle_dec x lo), (Rle_dec y lo);
  repeat match goal with |- context [Rle_dec ?a ?b] => destruct (Rle_dec a b) end; lra.
Qed.

(** All devices together. *)
Theorem C30_whole_layout : forall m scale layout,
  clip_layout m scale layout =
  match window m scale (valid (List.concat layout)) with
  | Some w => map (map (option_map (clip (fst w) (snd w)))) layout
  | None => layout
  end.
Proof.
  intros m scale layout. unfold clip_layout. rewrite (map_ext _ _ (C30_same_window_everywhere m scale layout)).
  destruct (window _ _ _); auto. apply map_id.
Qed.

(** The documented windows.  A quartile of a list: sort the values, interpolate linearly
    at position k (n - 1) / 4. *)
Definition is_quartile (k : nat) (l : list R) (q : R) : Prop :=
  exists s, Permutation l s /\ StronglySorted Rle s /\
    let h := (k * (length l - 1))%nat in
    let t := INR (h mod 4) / 4 in
    q = (1 - t) * nth (h / 4) s 0 + t * nth (h / 4 + 1) s 0.
Lemma quantile_is k l : l <> [] -> (k <= 4)%nat -> is_quartile k l (quantile4 k l).
Proof.
  intros NE K. exists (sort l). split; [apply sort_perm|]. split; [apply sort_sorted|]. cbv zeta.
  pose proof (quantile_bracket k l NE K) as B. cbv zeta in B. destruct B as (C & _ & D).
  unfold quantile4. cbv zeta. set (h := (k * (length l - 1))%nat) in *.
  destruct (Nat.lt_ge_cases (h / 4 + 1) (length (sort l))) as [C1|C1].
  - rewrite (nth_indep (sort l) _ 0 C1). ring.
  - assert (Z : (h mod 4 = 0)%nat).
    { rewrite sort_length in *. pose proof (Nat.div_mod h 4 ltac:(lia)).
      assert (L0 : (0 < length l)%nat) by (destruct l; [congruence|simpl; lia]).
      assert (h <= 4 * (length l - 1))%nat by (unfold h; nia). lia. }
    rewrite Z. change (INR 0) with 0. lra.
Qed.
Theorem C30_documented_window : forall m scale l w, l <> [] -> window m scale l = Some w ->
  match m with
  | Iqr => exists q1 q3, is_quartile 1 l q1 /\ is_quartile 3 l q3 /\
             w = (q1 - scale * (q3 - q1), q3 + scale * (q3 - q1))
  | Mad => exists mid dev, is_quartile 2 l mid /\ is_quartile 2 (map (fun x => Rabs (x - mid)) l) dev /\
             w = (mid - scale * dev, mid + scale * dev)
  | NoClip => False
  end.
Proof.
  intros m scale l w NE H. destruct m; simpl in H; inversion H; subst; clear H.
  - exists (quantile4 1 l), (quantile4 3 l). split; [apply quantile_is; auto|]. split; [apply quantile_is; auto|]. reflexivity.
  - exists (median l), (median (map (fun x => Rabs (x - median l)) l)). split; [apply quantile_is; auto|].
    split; [apply quantile_is; [destruct l; [congruence|discriminate]|lia]|]. reflexivity.
Qed.

(** Every value ends up inside the window, values inside are untouched, values outside
    go to the nearer end, order is kept, NaN stays NaN. *)
Theorem C30_clipped_values : forall m scale layout w, 0 <= scale ->
  window m scale (valid (List.concat layout)) = Some w ->
  forall shard i, (i < length shard)%nat ->
  match nth i shard None with
  | None => nth i (clip_shard m scale layout shard) None = None
  | Some x => exists y, nth i (clip_shard m scale layout shard) None = Some y /\
      fst w <= y <= snd w /\ (fst w <= x <= snd w -> y = x) /\ (x < fst w -> y = fst w) /\ (snd w < x -> y = snd w)
  end.
Proof.
  intros m scale layout w S W shard i Hi. rewrite C30_same_window_everywhere, W.
  pose proof (window_ordered _ _ _ _ S W) as O.
  pose proof (map_nth (option_map (clip (fst w) (snd w))) shard None i) as E. cbn [option_map] in E.
  destruct (nth i shard None) as [x|] eqn:N; cbn [option_map] in E; [|exact E].
  exists (clip (fst w) (snd w) x). split; [exact E|]. split; [apply clip_in; auto|]. split; [intros; apply clip_id; auto|].
  unfold clip, Rmin, Rmax. destruct (Rle_dec x (fst w)); split; intros;
    repeat match goal with |- context [Rle_dec ?a ?b] => destruct (Rle_dec a b) end; lra.
Qed.

Theorem C30_order_preserved : forall m scale layout x y a b,
  clip_shard m scale layout [Some x; Some y] = [Some a; Some b] -> x <= y -> a <= b.
Proof.
  intros m scale layout x y a b H L. rewrite C30_same_window_everywhere in H.
  destruct (window _ _ _) as [w|]; simpl in H; inversion H; subst; auto. apply clip_mono. auto.
Qed.

(** Method none is the identity. *)
Theorem C30_none_is_identity : forall scale layout, clip_layout NoClip scale layout = layout.
Proof. intros. unfold clip_layout. simpl. apply map_id. Qed.

(** An unknown method is an error. *)
Theorem C30_unknown_method_raises : forall s, s <> "iqr"%string -> s <> "mad"%string -> s <> "none"%string ->
  method_named s = Raise ValueError.
Proof.
  intros s A B C. unfold method_named. apply String.eqb_neq in A, B, C. rewrite A, B, C. auto.
Qed.

(** Any two layouts of the same walkers are clipped the same: the window depends on the
    values only, not on their order or on the devices. *)
Theorem C30_window_layout_independent : forall m scale l1 l2,
  Permutation (List.concat l1) (List.concat l2) ->
  forall shard, clip_shard m scale l1 shard = clip_shard m scale l2 shard.
Proof.
  intros m scale l1 l2 P shard.
  assert (PV : Permutation (valid (List.concat l1)) (valid (List.concat l2))) by (unfold valid; apply Permutation_flat_map; auto).
  destruct m; simpl; auto.
  - unfold iqr_window. rewrite !(quantile_perm _ _ _ PV). auto.
  - unfold mad_window, median. rewrite !(quantile_perm _ _ _ PV).
    rewrite (quantile_perm 2 _ _ (Permutation_map (fun x => Rabs (x - quantile4 2 (valid (List.concat l2)))) PV)). auto.
Qed.

(** The windows move with the values. *)
Lemma window_shift m scale l c w : l <> [] -> window m scale l = Some w ->
  window m scale (map (fun x => x + c) l) = Some (fst w + c, snd w + c).
Proof.
  intros NE H. destruct m; simpl in *; inversion H; subst; clear H; cbn [fst snd]; f_equal.
  - unfold iqr_window. rewrite !quantile_shift by (auto; lia). cbn [fst snd]. f_equal; lra.
  - unfold mad_window, median. rewrite quantile_shift by (auto; lia). rewrite map_map.
    rewrite (map_ext (fun x => Rabs (x + c - (quantile4 2 l + c))) (fun x => Rabs (x - quantile4 2 l))).
    + cbn [fst snd]. f_equal; lra.
    + intros x. f_equal. lra.
Qed.
Lemma clip_shift lo hi x c : clip (lo + c) (hi + c) (x + c) = clip lo hi x + c.
Proof.
  unfold clip, Rmin, Rmax. destruct (Rle_dec (x + c) (lo + c)), (Rle_dec x lo); try lra;
  repeat match goal with |- context [Rle_dec ?a ?b] => destruct (Rle_dec a b) end; lra.
Qed.

(** A concrete case: quartiles 1 and 3 of 0..4, scale 1, outlier 100 in the fifth place. *)
Example C30_example :
  sort [3; 1; 0; 100; 2] = [0; 1; 2; 3; 100] /\
  window Iqr 1 [3; 1; 0; 100; 2] = Some (-1, 5) /\
  clip_layout Iqr 1 [[Some 3; Some 1]; [Some 0; Some 100]; [Some 2; None]] =
    [[Some 3; Some 1]; [Some 0; Some 5]; [Some 2; None]].
Proof.
  assert (S : sort [3; 1; 0; 100; 2] = [0; 1; 2; 3; 100]).
  { cbn [sort fold_right insert].
    repeat (match goal with |- context [Rle_dec ?a ?b] => destruct (Rle_dec a b); [try lra|try lra] end; cbn [insert]); auto. }
  assert (W : iqr_window 1 [3; 1; 0; 100; 2] = (-1, 5)).
  { unfold iqr_window, quantile4. rewrite S. cbn. f_equal; lra. }
  split; auto. split; [simpl; rewrite W; auto|].
  unfold clip_layout. cbn [map]. unfold clip_shard. cbn [List.concat app valid flat_map]. 
  change (iqr_window 1 [3; 1; 0; 100; 2]) with (iqr_window 1 [3; 1; 0; 100; 2]). rewrite W. cbn [fst snd map option_map].
  assert (K : forall x y, (-1 <= x <= 5 /\ y = x) \/ (5 < x /\ y = 5) -> clip (-1) 5 x = y).
  { intros x y [[A ->]|[A ->]]; [apply clip_id; auto|]. unfold clip. rewrite Rmax_left, Rmin_right; lra. }
  rewrite (K 3 3), (K 1 1), (K 0 0), (K 100 5), (K 2 2) by lra. reflexivity.
Qed.

Print Assumptions C30_quantile_splits.
Print Assumptions C30_clipped_values.
