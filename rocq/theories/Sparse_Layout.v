(** Lemmas for C39: owner roles follow re-indexing, reduction and contraction of axes. *)
From Coq Require Import Reals List Arith Bool Lra Lia.
From Verif Require Import Lin Shape Lap_Spec Lap_Lang Lap_Model Sparse_Model Sparse_Spec Sparse_Lemmas.
Import ListNotations.
Open Scope nat_scope.

(** role [q] on the output is role [r] on the source, re-indexed by [g] *)
Definition follows (N : nat) (sh out : list nat) (r q : role) (g : nat -> nat) : Prop :=
  wf_role N out q /\ forall o, o < size out -> owner_id out q o = owner_id sh r (g o).

Lemma mem_In a l : mem a l = true <-> In a l.
Proof. unfold mem. rewrite existsb_exists. split; [intros (x & I & E); apply Nat.eqb_eq in E; subst; exact I|intros I; exists a; split; [exact I|apply Nat.eqb_refl]]. Qed.
Lemma mem_not a l : mem a l = false <-> ~ In a l.
Proof. rewrite <- mem_In. destruct (mem a l); split; congruence. Qed.
Lemma index_of_spec a l : In a l -> index_of a l < length l /\ nth (index_of a l) l 0 = a.
Proof.
  induction l as [|x l IH]; intros I; [destruct I|]. cbn. destruct (Nat.eqb_spec x a) as [E|E]; [split; [lia|exact E]|].
  destruct I as [I|I]; [congruence|]. destruct (IH I). split; [lia|assumption].
Qed.
Lemma nth_map_seq (f : nat -> nat) n a : a < n -> nth a (map f (seq 0 n)) 0 = f a.
Proof. intros A. rewrite (nth_indep _ 0 (f 0)) by (rewrite map_length, seq_length; exact A). rewrite map_nth, seq_nth by exact A. reflexivity. Qed.
Lemma nth_map (f : nat -> nat) l a : a < length l -> nth a (map f l) 0 = f (nth a l 0).
Proof. intros A. rewrite (nth_indep _ 0 (f 0)) by (rewrite map_length; exact A). apply map_nth. Qed.

(** position of a kept axis *)
Lemma filter_seq_pos (P : nat -> bool) n a : a < n -> P a = true ->
  length (filter P (seq 0 a)) < length (filter P (seq 0 n)) /\ nth (length (filter P (seq 0 a))) (filter P (seq 0 n)) 0 = a.
Proof.
  intros A H. replace n with (a + S (n - a - 1)) by lia. rewrite seq_app, filter_app. cbn [seq filter Nat.add]. rewrite H. rewrite app_length. cbn [length].
  split; [lia|]. rewrite app_nth2, Nat.sub_diag by lia. reflexivity.
Qed.
Lemma count_below_seq dims a : NoDup dims -> length (filter (fun x => negb (mem x dims)) (seq 0 a)) = a - count_below a dims /\ count_below a dims <= a.
Proof.
  intros N. assert (E : length (filter (fun x => negb (mem x dims)) (seq 0 a)) + length (filter (fun x => mem x dims) (seq 0 a)) = a).
  { rewrite <- (seq_length a 0) at 3. generalize (seq 0 a). induction l as [|x l IH]; cbn; [reflexivity|]. destruct (mem x dims); cbn; lia. }
  assert (F : length (filter (fun x => mem x dims) (seq 0 a)) = count_below a dims).
  { unfold count_below. apply Nat.le_antisymm.
    - apply NoDup_incl_length; [apply NoDup_filter, seq_NoDup|]. intros x I. apply filter_In in I as [I J]. apply in_seq in I. apply filter_In. split; [apply mem_In; exact J|apply Nat.ltb_lt; lia].
    - apply NoDup_incl_length; [apply NoDup_filter; exact N|]. intros x I. apply filter_In in I as [I J]. apply Nat.ltb_lt in J. apply filter_In. split; [apply in_seq; lia|apply mem_In; exact I]. }
  lia.
Qed.
Lemma kept_pos dims rank a : NoDup dims -> a < rank -> mem a dims = false ->
  a - count_below a dims < length (kept dims rank) /\ nth (a - count_below a dims) (kept dims rank) 0 = a.
Proof.
  intros N A M. destruct (count_below_seq dims a N) as [E _]. rewrite <- E. apply filter_seq_pos; [exact A|]. rewrite M. reflexivity.
Qed.
Lemma kept_In dims rank a : In a (kept dims rank) <-> a < rank /\ ~ In a dims.
Proof. unfold kept. rewrite filter_In, in_seq, negb_true_iff, mem_not. intuition lia. Qed.
Lemma kept_NoDup dims rank : NoDup (kept dims rank).
Proof. apply NoDup_filter, seq_NoDup. Qed.

Lemma cdiv_lt i d s : 0 < s -> i < cdiv d s -> i * s < d.
Proof.
  intros Hs I. unfold cdiv in I. destruct (Nat.lt_ge_cases (i * s) d) as [H|H]; [exact H|]. exfalso.
  assert ((d + s - 1) / s < S i); [|lia]. apply Nat.div_lt_upper_bound; [lia|]. rewrite Nat.mul_succ_r, (Nat.mul_comm s). lia.
Qed.
Lemma cdiv_pos d s : 0 < s -> 0 < d -> 0 < cdiv d s.
Proof. intros Hs D. unfold cdiv. apply Nat.div_str_pos. lia. Qed.

Definition is_reshape (l : layout) : bool := match l with Reshape _ => true | _ => false end.
(** the source coordinates are inside the source array *)
Lemma src_coord_lt l sh o a : layout_ok l sh -> is_reshape l = false -> 0 < size sh -> o < size (out_shape l sh) -> a < length sh ->
  src_coord l sh (unravel (out_shape l sh) o) a < nth a sh 0.
Proof.
  intros K NR P O A. pose proof (size_pos_nth sh a P A) as Pa.
  assert (In_ : forall j, j < length (out_shape l sh) -> nth j (unravel (out_shape l sh) o) 0 < nth j (out_shape l sh) 0) by (intros j J; apply (unravel_inside _ o O); exact J).
  destruct l as [perm|dims|dims|start stop stride|shape dims|new]; cbn [src_coord layout_ok out_shape is_reshape] in *; try discriminate; unfold at_ in *.
  - destruct K as (N & L & B). assert (I : In a perm).
    { assert (In a (seq 0 (length sh))) as I by (apply in_seq; lia). revert I. apply NoDup_length_incl; [exact N|rewrite seq_length; lia|]. intros x X. apply in_seq. specialize (B x X). lia. }
    apply index_of_spec in I as [I E]. specialize (In_ (index_of a perm)). rewrite map_length in In_. specialize (In_ I). rewrite nth_map, E in In_ by exact I. exact In_.
  - destruct K as [N B]. destruct (mem a dims) eqn:M; [exact Pa|]. destruct (kept_pos dims (length sh) a N A M) as [C D].
    specialize (In_ (a - count_below a dims)). rewrite map_length in In_. specialize (In_ C). rewrite nth_map, D in In_ by exact C. exact In_.
  - specialize (In_ a A). destruct (mem a dims); lia.
  - destruct K as (L1 & L2 & L3 & B). destruct (B a A) as (B1 & B2 & B3). specialize (In_ a). rewrite map_length, seq_length in In_. specialize (In_ A). rewrite nth_map_seq in In_ by exact A.
    apply cdiv_lt in In_; lia.
  - destruct K as (L & PS & B). destruct (B a A) as [B1 B2]. specialize (In_ _ B1). destruct (Nat.eqb_spec (nth a sh 0) 1) as [E|E]; [lia|]. destruct B2; [congruence|lia].
Qed.
Lemma src_inside l sh o : layout_ok l sh -> is_reshape l = false -> 0 < size sh -> o < size (out_shape l sh) ->
  inside sh (map (src_coord l sh (unravel (out_shape l sh) o)) (seq 0 (length sh))).
Proof.
  intros K NR P O. split; [rewrite map_length, seq_length; reflexivity|]. intros a A. rewrite nth_map_seq by exact A. apply src_coord_lt; auto.
Qed.
Lemma src_lt l sh o : layout_ok l sh -> 0 < size sh -> o < size (out_shape l sh) -> src l sh o < size sh.
Proof.
  intros K P O. destruct (is_reshape l) eqn:NR.
  - destruct l; try discriminate. cbn [layout_ok src out_shape] in *. lia.
  - replace (src l sh o) with (ravel sh (map (src_coord l sh (unravel (out_shape l sh) o)) (seq 0 (length sh)))) by (destruct l; try discriminate; reflexivity).
    apply ravel_lt. apply src_inside; auto.
Qed.
Lemma src_coord_spec l sh o a : layout_ok l sh -> is_reshape l = false -> 0 < size sh -> o < size (out_shape l sh) -> a < length sh ->
  nth a (unravel sh (src l sh o)) 0 = src_coord l sh (unravel (out_shape l sh) o) a.
Proof.
  intros K NR P O A. replace (src l sh o) with (ravel sh (map (src_coord l sh (unravel (out_shape l sh) o)) (seq 0 (length sh)))) by (destruct l; try discriminate; reflexivity).
  rewrite unravel_ravel by (apply src_inside; auto). apply nth_map_seq. exact A.
Qed.
Lemma size_app l : forall m, size (l ++ m) = size l * size m.
Proof.
  induction l as [|x l IHl]; intros m; [change (size m = 1 * size m); lia|]. change (x * size (l ++ m) = x * size l * size m). rewrite IHl. ring.
Qed.
(** the preserved axis of a reshape *)
Lemma reshape_axis_spec L T c : forall sizes axis prefix pre a', prefix = size pre -> length pre = axis ->
  forall preserved, (forall x, preserved = Some x -> x < length (pre ++ sizes) /\ size (firstn x (pre ++ sizes)) = L /\ nth x (pre ++ sizes) 0 = c /\ size (skipn (S x) (pre ++ sizes)) = T) ->
  reshape_axis L T c axis prefix sizes preserved = Some (Some a') ->
  a' < length (pre ++ sizes) /\ size (firstn a' (pre ++ sizes)) = L /\ nth a' (pre ++ sizes) 0 = c /\ size (skipn (S a') (pre ++ sizes)) = T.
Proof.
  induction sizes as [|d rest IH]; intros axis prefix pre a' Hp Ha preserved HP H; cbn in H; [injection H as ->; apply HP; reflexivity|].
  assert (SA : forall l m, size (l ++ m) = size l * size m) by exact size_app.
  assert (X : pre ++ d :: rest = (pre ++ [d]) ++ rest) by (rewrite <- app_assoc; reflexivity).
  assert (Y : size (pre ++ [d]) = prefix * d) by (rewrite SA; cbn; subst; ring).
  assert (Z : length (pre ++ [d]) = S axis) by (rewrite app_length; cbn; lia).
  destruct ((prefix =? L) && (d =? c) && (size rest =? T))%bool eqn:B.
  - destruct preserved as [x|]; [discriminate|]. rewrite X. apply (IH _ _ _ _ (eq_sym Y) Z (Some axis)); [|exact H].
    intros x E. injection E as <-. apply andb_true_iff in B as [B B3]. apply andb_true_iff in B as [B1 B2]. apply Nat.eqb_eq in B1, B2, B3. rewrite <- X, <- Ha.
    rewrite app_length. split; [cbn; lia|]. split; [|split].
    + rewrite firstn_app, firstn_all, Nat.sub_diag, firstn_O, app_nil_r. lia.
    + rewrite app_nth2, Nat.sub_diag by lia. exact B2.
    + rewrite skipn_app, skipn_all2 by lia. replace (S (length pre) - length pre) with 1 by lia. exact B3.
  - rewrite X. apply (IH _ _ _ _ (eq_sym Y) Z preserved); [|exact H]. rewrite <- X. exact HP.
Qed.
Lemma unravel_0 sh a : 0 < size sh -> a < length sh -> nth a sh 0 = 1 -> forall o, o < size sh -> nth a (unravel sh o) 0 = 0.
Proof. intros P A E o O. pose proof (proj2 (unravel_inside sh o O) a A). lia. Qed.
Lemma Forall_nth_lt N l : Forall (fun p => p < N) l -> forall j, j < length l -> nth j l 0 < N.
Proof. intros F j J. rewrite Forall_forall in F. apply F, nth_In, J. Qed.

Lemma layout_follows N l sh r q : layout_ok l sh -> 0 < size sh -> 0 < size (out_shape l sh) -> wf_role N sh r -> layout_role l sh r = Some q -> follows N sh (out_shape l sh) r q (src l sh).
Proof.
  intros K P PO W E. unfold layout_role in E. destruct (ax r) as [a|] eqn:AX.
  2:{ injection E as <-. split; [|intros o _; unfold owner_id; rewrite AX; reflexivity]. destruct W as [W F]. rewrite AX in W. split; [rewrite AX; exact W|exact F]. }
  destruct (wf_some _ _ _ _ W AX) as (A & L & L1). destruct W as [_ F].
  assert (G : forall a', a' < length (out_shape l sh) -> nth a' (out_shape l sh) 0 = nth a sh 0 ->
     (forall o, o < size (out_shape l sh) -> nth a' (unravel (out_shape l sh) o) 0 = nth a (unravel sh (src l sh o)) 0) ->
     follows N sh (out_shape l sh) r (mk_role (Some a') (vals r)) (src l sh)).
  { intros a' A' L' H. split; [apply mk_role_wf; auto; congruence|]. intros o O. rewrite mk_role_id by (auto; congruence). unfold owner_id. rewrite AX, H by exact O. reflexivity. }
  destruct l as [perm|dims|dims|start stop stride|shape dims|new].
  - injection E as <-. destruct K as (ND & LP & B). assert (I : In a perm).
    { assert (In a (seq 0 (length sh))) as I by (apply in_seq; lia). revert I. apply NoDup_length_incl; [exact ND|rewrite seq_length; lia|]. intros x X. apply in_seq. specialize (B x X). lia. }
    apply index_of_spec in I as [I E]. apply G.
    + cbn. rewrite map_length. exact I.
    + cbn. rewrite nth_map by exact I. rewrite E. reflexivity.
    + intros o O. rewrite src_coord_spec; cbn [src_coord is_reshape layout_ok]; auto. 
  - destruct K as (ND & B). destruct (mem a dims) eqn:M.
    { exfalso. apply mem_In in M. destruct (B a M) as [_ B1]. lia. }
    injection E as <-. destruct (kept_pos dims (length sh) a ND A M) as [C D]. apply G.
    + cbn. rewrite map_length. exact C.
    + cbn. rewrite nth_map, D by exact C. reflexivity.
    + intros o O. rewrite src_coord_spec; cbn [src_coord is_reshape layout_ok]; auto. rewrite M. reflexivity.
  - destruct (mem a dims) eqn:M; injection E as <-.
    + split; [apply mk_role_wf; auto; [rewrite rev_length; exact L|apply Forall_rev; exact F]|]. intros o O. cbn [out_shape] in *. rewrite mk_role_id by (auto; rewrite rev_length; exact L).
      unfold owner_id. rewrite AX. rewrite src_coord_spec by auto. cbn [src_coord out_shape]. rewrite M. pose proof (proj2 (unravel_inside sh o O) a A) as Q. unfold at_. rewrite rev_nth by lia. f_equal. lia.
    + assert (X : r = mk_role (Some a) (vals r)). { destruct r as [ax0 v]. cbn in *. subst ax0. unfold mk_role. destruct (Nat.eqb_spec (length v) 1); [congruence|reflexivity]. }
      rewrite X at 2. apply G; auto. intros o O. rewrite src_coord_spec by auto. cbn [src_coord]. rewrite M. reflexivity.
  - injection E as <-. destruct K as (L2 & L3 & L4 & B). destruct (B a A) as (B1 & B2 & B3). cbn [out_shape]. unfold at_ in *. rewrite L, Nat.min_l by exact B2.
    set (osh := map _ (seq 0 (length sh))). set (v := map _ (seq 0 (cdiv _ _))).
    assert (LV : length v = nth a osh 0) by (unfold v, osh; rewrite map_length, seq_length, nth_map_seq by exact A; reflexivity).
    assert (AO : a < length osh) by (unfold osh; rewrite map_length, seq_length; exact A).
    assert (Q : forall j, j < length v -> nth a start 0 + j * nth a stride 0 < length (vals r)).
    { intros j J. unfold v in J. rewrite map_length, seq_length in J. apply cdiv_lt in J; lia. }
    split.
    + apply mk_role_wf; auto. apply Forall_forall. intros p I. unfold v in I. apply in_map_iff in I as (j & <- & J). apply in_seq in J. apply Forall_nth_lt; [exact F|]. apply Q. unfold v. rewrite map_length, seq_length. lia.
    + intros o O. rewrite mk_role_id by auto. unfold owner_id. rewrite AX.
      assert (J : nth a (unravel osh o) 0 < length v) by (rewrite LV; apply (unravel_inside osh o O); exact AO).
      unfold v at 1. rewrite nth_map_seq by (unfold v in J; rewrite map_length, seq_length in J; exact J).
      rewrite src_coord_spec; cbn [src_coord is_reshape layout_ok]; auto.
  - injection E as <-. destruct K as (LD & PS & B). destruct (B a A) as [B1 B2]. assert (B3 : nth a sh 0 = nth (nth a dims 0) shape 0) by (destruct B2 as [B2|B2]; [lia|exact B2]). unfold at_. apply G; auto.
    intros o O. rewrite src_coord_spec; cbn [src_coord is_reshape layout_ok]; auto. unfold at_. destruct (Nat.eqb_spec (nth a sh 0) 1) as [X|X]; [lia|reflexivity].
  - destruct (reshape_axis _ _ _ 0 1 new None) as [[a'|]|] eqn:R; try discriminate. injection E as <-.
    apply (reshape_axis_spec _ _ _ new 0 1 [] a' eq_refl eq_refl None) in R; [|discriminate]. cbn [app] in R. destruct R as (R1 & R2 & R3 & R4). cbn [out_shape] in *. apply G; auto; [congruence|].
    cbn in K. intros o O. cbn [src]. rewrite !nth_unravel by (auto; congruence). rewrite R3, R4, L. reflexivity.
Qed.

(** broadcasting *)
Lemma bcast_ok sh out : broadcasts sh out -> 0 < size out -> layout_ok (bcast_layout sh out) sh.
Proof.
  intros [L B] P. cbn. rewrite map_length, seq_length. split; [reflexivity|]. split; [exact P|]. intros a A. rewrite nth_map_seq by exact A. split; [lia|]. apply B. exact A.
Qed.
Lemma bcast_role_layout sh out r : wf_role 0 sh r \/ True -> (forall a, ax r = Some a -> a < length sh) -> layout_role (bcast_layout sh out) sh r = Some (bcast_role sh out r).
Proof.
  intros _ H. unfold layout_role, bcast_role, bcast_layout. destruct (ax r) as [a|]; [|reflexivity]. unfold at_. rewrite nth_map_seq by (apply H; reflexivity). reflexivity.
Qed.
Lemma bcast_follows N sh out r : broadcasts sh out -> 0 < size sh -> 0 < size out -> wf_role N sh r -> follows N sh out r (bcast_role sh out r) (bsrc sh out).
Proof.
  intros B P PO W. apply (layout_follows N (bcast_layout sh out) sh r); auto; [apply bcast_ok; auto|]. apply bcast_role_layout; [auto|]. intros a E. apply (wf_some _ _ _ _ W E).
Qed.
Lemma bsrc_lt sh out o : broadcasts sh out -> 0 < size sh -> 0 < size out -> o < size out -> bsrc sh out o < size sh.
Proof. intros B P PO O. apply (src_lt (bcast_layout sh out)); auto. apply bcast_ok; auto. Qed.
Lemma bsrc_same sh o : 0 < size sh -> o < size sh -> bsrc sh sh o = o.
Proof.
  intros P O. unfold bsrc. set (l := bcast_layout sh sh). assert (K : layout_ok l sh) by (apply bcast_ok; [split; [lia|intros a _; right; rewrite Nat.sub_diag, Nat.add_0_r; reflexivity]|exact P]).
  rewrite <- (ravel_unravel sh (src l sh o)) by (apply src_lt; auto). rewrite <- (ravel_unravel sh o) at 2 by exact O. f_equal. apply (nth_ext _ _ 0 0); [rewrite !length_unravel; reflexivity|].
  intros a A. rewrite length_unravel in A. rewrite src_coord_spec by auto. cbn. unfold at_. destruct (Nat.eqb_spec (nth a sh 0) 1) as [E|E].
  - symmetry. apply unravel_0; auto.
  - rewrite nth_map_seq by exact A. rewrite Nat.sub_diag, Nat.add_0_r. reflexivity.
Qed.
(** ** Summed axes *)
Lemma sum_size_pos axes sh : 0 < size sh -> 0 < size (sum_shape axes sh).
Proof.
  intros P. unfold sum_shape. assert (H : forall a, In a (kept axes (length sh)) -> 0 < at_ sh a) by (intros a I; apply size_pos_nth; [exact P|]; apply kept_In in I; apply I).
  revert H. generalize (kept axes (length sh)). induction l as [|a l IH]; intros H; cbn; [lia|]. fold (size (map (at_ sh) l)). apply Nat.mul_pos_pos; [apply H; left; reflexivity|]. apply IH. intros b I. apply H. right. exact I.
Qed.
Lemma sum_idx_inside axes sh m : m < size sh -> inside (sum_shape axes sh) (map (at_ (unravel sh m)) (kept axes (length sh))).
Proof.
  intros M. split; [unfold sum_shape; rewrite !map_length; reflexivity|]. unfold sum_shape. intros j J. rewrite map_length in J. rewrite !nth_map by exact J. apply (unravel_inside sh m M).
  assert (I : In (nth j (kept axes (length sh)) 0) (kept axes (length sh))) by (apply nth_In; exact J). apply kept_In in I. apply I.
Qed.
Lemma sum_elems_spec axes sh o m : In m (sum_elems axes sh o) <-> m < size sh /\ sum_dest axes sh m = o.
Proof. unfold sum_elems. rewrite filter_In, in_seq, Nat.eqb_eq. lia. Qed.
Lemma all_equal_nth v j : all_equal v = true -> j < length v -> nth j v 0 = nth 0 v 0.
Proof. intros H J. unfold all_equal in H. rewrite forallb_forall in H. apply Nat.eqb_eq. apply H. apply nth_In. exact J. Qed.
Lemma reduce_follows N axes sh r q : NoDup axes -> 0 < size sh -> wf_role N sh r -> reduce_role axes r = Some q ->
  wf_role N (sum_shape axes sh) q /\ forall m, m < size sh -> owner_id (sum_shape axes sh) q (sum_dest axes sh m) = owner_id sh r m.
Proof.
  intros ND P W E. unfold reduce_role in E. destruct (ax r) as [a|] eqn:AX.
  2:{ injection E as <-. split; [|intros m _; unfold owner_id; rewrite AX; reflexivity]. destruct W as [W F]. rewrite AX in W. split; [rewrite AX; exact W|exact F]. }
  destruct (wf_some _ _ _ _ W AX) as (A & L & L1). destruct W as [_ F]. pose proof (size_pos_nth sh a P A) as Pa. destruct (mem a axes) eqn:M.
  - destruct (all_equal (vals r)) eqn:Q; [|discriminate]. injection E as <-. destruct (vals r) as [|v0 v] eqn:V; [cbn in L; lia|]. split.
    + unfold wf_role, mk_role. cbn. split; [reflexivity|]. constructor; [|constructor]. inversion F; assumption.
    + intros m Hm. unfold owner_id at 2. rewrite AX, V. rewrite (all_equal_nth (v0 :: v)); [reflexivity|exact Q|]. rewrite L. apply (unravel_inside sh m Hm). exact A.
  - injection E as <-. destruct (kept_pos axes (length sh) a ND A M) as [C D].
    assert (X : nth (a - count_below a axes) (sum_shape axes sh) 0 = nth a sh 0) by (unfold sum_shape; rewrite nth_map, D by exact C; reflexivity).
    assert (Y : a - count_below a axes < length (sum_shape axes sh)) by (unfold sum_shape; rewrite map_length; exact C).
    split; [apply mk_role_wf; auto; congruence|]. intros m Hm. pose proof (sum_idx_inside axes sh m Hm) as I. rewrite mk_role_id; [|exact Y|congruence|apply ravel_lt; exact I].
    unfold owner_id. rewrite AX. unfold sum_dest. rewrite unravel_ravel by exact I. rewrite nth_map, D by exact C. reflexivity.
Qed.
