(** Proofs about the checkpoint model. *)
From Coq Require Import String Ascii List Bool Arith ZArith NArith Lia Permutation Sorted.
From Verif Require Import Common Common_Proofs Ckpt_Model Ckpt_Spec.
Import ListNotations.
Open Scope string_scope.

(** ** Decimal rendering *)
Lemma digits_length : forall k n, String.length (digits k n) = k.
Proof.
  induction k; simpl; intros; auto. rewrite length_app_s, IHk. simpl. lia.
Qed.

Lemma digit_compare : forall a b, (a < 10)%N -> (b < 10)%N ->
  String.compare (String (digit_char a) "") (String (digit_char b) "") = N.compare a b.
Proof.
  intros a b Ha Hb. simpl. unfold Ascii.compare, digit_char.
  rewrite !N_ascii_embedding by lia.
  destruct (N.compare_spec (48 + a) (48 + b)); destruct (N.compare_spec a b); try lia; auto.
Qed.

Lemma pow10_S : forall k, (10 ^ N.of_nat (S k) = 10 * 10 ^ N.of_nat k)%N.
Proof. intros. rewrite Nat2N.inj_succ, N.pow_succ_r'. reflexivity. Qed.

Lemma digits_compare : forall k a b,
  (a < 10 ^ N.of_nat k)%N -> (b < 10 ^ N.of_nat k)%N ->
  String.compare (digits k a) (digits k b) = N.compare a b.
Proof.
  induction k; intros a b Ha Hb.
  - simpl in *. assert (a = 0%N) by lia. assert (b = 0%N) by lia. subst. reflexivity.
  - rewrite pow10_S in Ha, Hb. cbn [digits].
    rewrite compare_app_len by (rewrite !digits_length; reflexivity).
    rewrite IHk by (apply N.div_lt_upper_bound; [discriminate | assumption]).
    rewrite digit_compare by (apply N.mod_lt; discriminate).
    pose proof (N.div_mod a 10 ltac:(discriminate)). pose proof (N.div_mod b 10 ltac:(discriminate)).
    pose proof (N.mod_lt a 10 ltac:(discriminate)). pose proof (N.mod_lt b 10 ltac:(discriminate)).
    clear Ha Hb IHk.
    set (qa := (a / 10)%N) in *. set (qb := (b / 10)%N) in *.
    set (ra := (a mod 10)%N) in *. set (rb := (b mod 10)%N) in *.
    clearbody qa qb ra rb. subst a b.
    destruct (N.compare_spec qa qb); destruct (N.compare_spec ra rb);
      match goal with |- context [(?x ?= ?y)%N] => destruct (N.compare_spec x y) end;
      auto; exfalso; lia.
Qed.

Lemma ndigits_fuel_le : forall f k n, (1 <= k)%nat -> (n < 10 ^ N.of_nat k)%N ->
  (ndigits_fuel f n <= k)%nat.
Proof.
  induction f; simpl; intros k n Hk Hn; auto.
  destruct (N.ltb_spec n 10); auto.
  destruct k; [lia|]. rewrite pow10_S in Hn.
  destruct k.
  - simpl in Hn. lia.
  - apply le_n_S. apply IHf; [lia|]. apply N.div_lt_upper_bound; lia.
Qed.

Lemma ndigits_fuel_lower : forall f n, (f >= N.to_nat (N.size n))%nat -> (10 <= n)%N ->
  (10 ^ N.of_nat (ndigits_fuel f n - 1) <= n)%N.
Proof.
  induction f; intros n Hf Hn.
  - simpl. lia.
  - simpl. destruct (N.ltb_spec n 10); [lia|].
    destruct (N.le_gt_cases 10 (n / 10)) as [H1|H1].
    + assert (Hs: (N.to_nat (N.size (n / 10)) <= f)%nat).
      { assert (N.size (n / 10) < N.size n)%N; [|lia].
        rewrite !N.size_log2; [| lia | intro E; rewrite E in H1; lia].
        apply -> N.succ_lt_mono.
        apply N.le_lt_trans with (N.log2 (n / 2)).
        - apply N.log2_le_mono. apply N.div_le_compat_l. lia.
        - replace (n / 2)%N with (N.shiftr n 1) by (rewrite N.shiftr_div_pow2; reflexivity).
          rewrite N.log2_shiftr. pose proof (N.log2_pos n). lia. }
      specialize (IHf (n / 10)%N Hs H1).
      assert (ndigits_fuel f (n / 10) >= 1)%nat.
      { destruct f; simpl; try lia. destruct (n / 10 <? 10)%N; lia. }
      replace (S (ndigits_fuel f (n / 10)) - 1)%nat with (S (ndigits_fuel f (n / 10) - 1)) by lia.
      rewrite pow10_S. pose proof (N.mul_div_le n 10). lia.
    + assert (E: ndigits_fuel f (n / 10) = 1%nat).
      { destruct f; simpl; auto. destruct (N.ltb_spec (n/10) 10); auto; lia. }
      rewrite E. simpl. lia.
Qed.

Definition small (s : N) : Prop := (s < 1000000)%N.

Lemma fmt06_small : forall n, small n -> fmt06 n = digits 6 n.
Proof.
  intros n H. unfold fmt06, ndigits.
  pose proof (ndigits_fuel_le (N.to_nat (N.size n)) 6 n ltac:(lia) H).
  rewrite Nat.max_l by lia. reflexivity.
Qed.

Lemma ckpt_name_compare : forall p a b, small a -> small b ->
  String.compare (ckpt_name p a) (ckpt_name p b) = N.compare a b.
Proof.
  intros p a b Ha Hb. unfold ckpt_name.
  rewrite !compare_app_head.
  rewrite !fmt06_small by assumption.
  rewrite compare_app_len by (rewrite !digits_length; reflexivity).
  rewrite digits_compare by (unfold small in *; simpl; lia).
  rewrite compare_refl_s. destruct (N.compare a b); reflexivity.
Qed.

Lemma ckpt_name_inj : forall p a b, small a -> small b ->
  ckpt_name p a = ckpt_name p b -> a = b.
Proof.
  intros p a b Ha Hb E. apply N.compare_eq_iff.
  rewrite <- (ckpt_name_compare p) by assumption. rewrite E. apply compare_refl_s.
Qed.

Lemma glob_own : forall p s, glob_ckpt p (ckpt_name p s) = true.
Proof.
  intros. unfold glob_ckpt, ckpt_name.
  rewrite <- app_assoc_s.
  rewrite prefix_app_s, str_drop_app, suffixb_app. reflexivity.
Qed.

(** ** Sorting *)
Lemma insert_desc_perm : forall x l, Permutation (x :: l) (insert_desc x l).
Proof.
  induction l; simpl; auto. destruct (str_ltb (fst x) (fst a)); auto.
  eapply perm_trans; [apply perm_swap|]. constructor. exact IHl.
Qed.

Lemma sort_desc_perm : forall l, Permutation l (sort_desc l).
Proof.
  induction l; simpl; auto. eapply perm_trans; [|apply insert_desc_perm]. auto.
Qed.

(** Candidates are tried in descending step order. *)
Definition stepped (p : string) (l : list (string * file)) : Prop :=
  forall n f, In (n, f) l -> exists s, small s /\ n = ckpt_name p s.

Inductive desc (p : string) : list (string * file) -> Prop :=
| desc_nil : desc p []
| desc_cons : forall s f l, small s ->
    (forall n f', In (n, f') l -> exists s', small s' /\ n = ckpt_name p s' /\ (s' <= s)%N) ->
    desc p l -> desc p ((ckpt_name p s, f) :: l).

Lemma insert_desc_desc : forall p s f l, small s -> desc p l ->
  desc p (insert_desc (ckpt_name p s, f) l).
Proof.
  intros p s f l Hs D. induction D as [|s0 f0 l Hs0 Hall D IH]; simpl.
  - constructor; auto using desc_nil. intros ? ? [].
  - unfold str_ltb. rewrite ckpt_name_compare by assumption.
    destruct (N.compare_spec s s0).
    + subst. constructor; auto.
      * intros n f' [E|H]; [inversion E; subst; exists s0; repeat split; auto; lia|].
        destruct (Hall n f' H) as [s' [? [? ?]]]. exists s'. auto.
      * constructor; auto.
    + constructor; auto. intros n f' H'.
      assert (Hin: In (n, f') ((ckpt_name p s, f) :: l)).
      { eapply Permutation_in; [apply Permutation_sym, insert_desc_perm | exact H']. }
      destruct Hin as [E|Hin]; [inversion E; subst; exists s; repeat split; auto; lia|].
      destruct (Hall n f' Hin) as [s' [? [? ?]]]. exists s'. auto.
    + constructor; auto.
      * intros n f' [E|H']; [inversion E; subst; exists s0; repeat split; auto; lia|].
        destruct (Hall n f' H') as [s' [? [? ?]]]. exists s'. repeat split; auto. lia.
      * constructor; auto.
Qed.

Lemma sort_desc_desc : forall p l, stepped p l -> desc p (sort_desc l).
Proof.
  induction l as [|[n f] l IH]; simpl; intros S.
  - constructor.
  - destruct (S n f (or_introl eq_refl)) as [s [Hs ->]].
    apply insert_desc_desc; auto. apply IH. intros n' f' H. apply (S n' f'). right; exact H.
Qed.

Lemma desc_NoDup_strict : forall p s f l, NoDup (map fst ((ckpt_name p s, f) :: l)) ->
  desc p ((ckpt_name p s, f) :: l) -> small s ->
  forall s' f', In (ckpt_name p s', f') l -> small s' -> (s' < s)%N.
Proof.
  intros p s f l ND D Hs s' f' Hin Hs'. inversion D; subst.
  destruct (H3 _ _ Hin) as [s2 [Hs2 [E Hle]]].
  apply ckpt_name_inj in E; auto. subst s2.
  apply ckpt_name_inj in H; auto. subst s0.
  inversion ND; subst. destruct (N.eq_dec s s'); [|lia]. subst.
  exfalso. apply H1. change (ckpt_name p s') with (fst (ckpt_name p s', f')).
  apply in_map. exact Hin.
Qed.

Lemma try_newest : forall p l fb strict s f r,
  desc p l -> NoDup (map fst l) -> small s ->
  In (ckpt_name p s, f) l ->
  restore_from_file f fb = Ok r ->
  (forall s' f', small s' -> In (ckpt_name p s', f') l -> (s < s')%N ->
     exists e, restore_from_file f' fb = Raise e /\ caught e = true) ->
  try_files l fb strict = Ok r.
Proof.
  intros p l fb strict s f r D. induction D as [|s0 f0 l Hs0 Hall D IH]; intros ND Hs Hin Hr Hnew.
  - destruct Hin.
  - assert (DD: desc p ((ckpt_name p s0, f0) :: l)) by (constructor; auto).
    simpl. destruct Hin as [E|Hin].
    + assert (En: ckpt_name p s0 = ckpt_name p s) by congruence.
      assert (Ef: f0 = f) by congruence. subst f0. rewrite Hr. reflexivity.
    + assert (Hlt: (s < s0)%N) by (eapply desc_NoDup_strict; eauto).
      destruct (Hnew s0 f0 Hs0 (or_introl eq_refl) Hlt) as [e [He Hc]].
      rewrite He, Hc. inversion ND; subst. apply IH; auto.
      intros s' f' Hs' Hin' Hlt'. apply (Hnew s' f'); auto. right; exact Hin'.
Qed.

Lemma NoDup_map_filter : forall {A B} (g : A -> B) (p : A -> bool) l,
  NoDup (map g l) -> NoDup (map g (filter p l)).
Proof.
  induction l; simpl; intros ND; auto. inversion ND; subst. destruct (p a); simpl; auto.
  constructor; auto. intro H. apply H1.
  apply in_map_iff in H. destruct H as [x [Hx Hin]]. apply filter_In in Hin.
  apply in_map_iff. exists x. tauto.
Qed.

Lemma restore_dir_newest : forall p es fb strict s f r,
  NoDup (map fst es) ->
  (forall n f, In (n, f) es -> glob_ckpt p n = true -> exists s, small s /\ n = ckpt_name p s) ->
  small s -> In (ckpt_name p s, f) es ->
  restore_from_file f fb = Ok r ->
  (forall s' f', small s' -> In (ckpt_name p s', f') es -> (s < s')%N ->
     exists e, restore_from_file f' fb = Raise e /\ caught e = true) ->
  restore p (Dir es) fb strict = Ok r.
Proof.
  intros p es fb strict s f r ND Hst Hs Hin Hr Hnew.
  set (l := filter (fun e => glob_ckpt p (fst e)) es).
  assert (Hst': stepped p l).
  { intros n f' H. apply filter_In in H. destruct H. apply (Hst n f'); auto. }
  assert (HinL: In (ckpt_name p s, f) (sort_desc l)).
  { eapply Permutation_in; [apply sort_desc_perm|]. apply filter_In. split; auto.
    simpl. apply glob_own. }
  assert (T: try_files (sort_desc l) fb strict = Ok r).
  { eapply try_newest; eauto.
    - apply sort_desc_desc; auto.
    - eapply Permutation_NoDup; [apply Permutation_map, sort_desc_perm|].
      apply NoDup_map_filter. exact ND.
    - intros s' f' Hs' Hin' Hlt. apply (Hnew s' f'); auto.
      eapply Permutation_in in Hin'; [|apply Permutation_sym, sort_desc_perm].
      apply filter_In in Hin'. tauto. }
  simpl. fold l. destruct (sort_desc l); [destruct HinL | exact T].
Qed.

Lemma try_all_torn : forall l fb strict,
  (forall n f, In (n, f) l -> exists e, restore_from_file f fb = Raise e /\ caught e = true) ->
  try_files l fb strict = if strict then Raise RuntimeError else Ok (0%N, fb).
Proof.
  induction l as [|[n f] l IH]; simpl; intros fb strict H; auto.
  destruct (H n f (or_introl eq_refl)) as [e [He Hc]]. rewrite He, Hc.
  apply IH. intros n' f' Hin. apply (H n' f'). right; exact Hin.
Qed.

(** ** Trees *)
Lemma tree_ind2 : forall P : tree -> Prop,
  (forall l, P (Leaf l)) ->
  (forall cs, (forall k c, In (k, c) cs -> P c) -> P (Node cs)) ->
  forall t, P t.
Proof.
  intros P HL HN.
  fix IH 1. intros [l|cs].
  - apply HL.
  - apply HN. induction cs as [|[k c] cs IHcs]; intros k' c' Hin.
    + destruct Hin.
    + destruct Hin as [E|Hin].
      * apply (f_equal snd) in E. cbn [snd] in E. rewrite <- E. apply IH.
      * eapply IHcs. exact Hin.
Qed.

Definition push (k : string) (pl : list string * leaf) := (k :: fst pl, snd pl).

Lemma leaves_node : forall cs,
  leaves_with_path (Node cs) = flat_map (fun kc => map (push (fst kc)) (leaves_with_path (snd kc))) cs.
Proof.
  intros cs. simpl. induction cs as [|[k c] cs IH]; simpl; auto. rewrite IH. reflexivity.
Qed.

Lemma fold_set_get_other : forall (L : list (list string * leaf)) d n,
  ~ In n (map (fun pl => key_path (fst pl)) L) ->
  dict_get (fold_left (fun d pl => dict_set d (key_path (fst pl)) (ldata (snd pl))) L d) n
  = dict_get d n.
Proof.
  induction L as [|[pth l] L IH]; simpl; intros d n H; auto.
  rewrite IH by tauto. apply dict_get_set_other. tauto.
Qed.

Lemma fold_set_get : forall (L : list (list string * leaf)) d pth l,
  NoDup (map (fun pl => key_path (fst pl)) L) -> In (pth, l) L ->
  dict_get (fold_left (fun d pl => dict_set d (key_path (fst pl)) (ldata (snd pl))) L d) (key_path pth)
  = Some (ldata l).
Proof.
  induction L as [|[p0 l0] L IH]; simpl; intros d pth l ND H; [destruct H|].
  inversion ND; subst. destruct H as [E|H].
  - inversion E; subst. rewrite fold_set_get_other; auto. apply dict_get_set_same.
  - apply IH; auto.
Qed.

Lemma fold_set_keys : forall (L : list (list string * leaf)) d n,
  In n (map fst (fold_left (fun d pl => dict_set d (key_path (fst pl)) (ldata (snd pl))) L d)) <->
  In n (map fst d) \/ In n (map (fun pl => key_path (fst pl)) L).
Proof.
  induction L as [|[p0 l0] L IH]; simpl; intros d n; [tauto|].
  rewrite IH, dict_set_keys_In. simpl. intuition.
Qed.

Lemma tree_to_npz_get : forall t pth l, NoDup (names t) ->
  In (pth, l) (leaves_with_path t) -> dict_get (tree_to_npz t) (key_path pth) = Some (ldata l).
Proof. intros. apply fold_set_get; auto. Qed.

Lemma tree_to_npz_keys : forall t n, In n (map fst (tree_to_npz t)) <-> In n (names t).
Proof. intros. unfold tree_to_npz. rewrite fold_set_keys. simpl. tauto. Qed.

Lemma from_npz_at_ok : forall npf t ref pre,
  skeleton ref = skeleton t ->
  (forall pth l, In (pth, l) (leaves_with_path t) ->
     dict_get npf (key_path (pre ++ pth)%list) = Some (ldata l) /\ scalar_ok l) ->
  tree_from_npz_at npf pre ref = Ok t.
Proof.
  intros npf t. induction t as [l|cs IH] using tree_ind2; intros ref pre Hsk H.
  - destruct ref as [rl|rcs]; simpl in Hsk; [|discriminate].
    injection Hsk as Hk. simpl.
    destruct (H [] l (or_introl eq_refl)) as [Hget Hsc].
    rewrite app_nil_r in Hget. unfold from_npz. rewrite Hget, Hk.
    destruct l as [k d]; simpl in *. destruct k; simpl; auto.
    destruct (Hsc eq_refl) as [z Hz]. simpl in Hz. subst d. reflexivity.
  - destruct ref as [rl|rcs]; simpl in Hsk; [discriminate|].
    injection Hsk as Hsk. rewrite leaves_node in H. cbn [tree_from_npz_at].
    match goal with |- bind ?x _ = _ => assert (G: x = Ok cs) end.
    { revert rcs Hsk. induction cs as [|[k c] cs IHcs]; intros [|[rk rc] rcs] Hsk; simpl in Hsk; try discriminate.
      - reflexivity.
      - injection Hsk as -> Hc Hcs.
        assert (Hc': tree_from_npz_at npf (pre ++ [k]) rc = Ok c).
        { apply (IH k c (or_introl eq_refl)); auto. intros pth l Hin.
          destruct (H (k :: pth) l) as [Hg Hs].
          - simpl. apply in_or_app. left. apply in_map_iff. exists (pth, l). auto.
          - rewrite <- app_assoc. simpl. auto. }
        rewrite Hc'. simpl.
        rewrite IHcs; simpl; auto.
        + intros k' c' Hin. apply (IH k' c'). right; exact Hin.
        + intros pth l Hin. apply H. simpl. apply in_or_app. right; exact Hin. }
    rewrite G. reflexivity.
Qed.

Lemma make_archive_ok : forall s t, storable t ->
  make_archive s t = Ok (Archive (("step", mkPayload [] [Z.of_N s]) :: tree_to_npz t)).
Proof.
  intros s t [_ [Hres _]]. unfold make_archive.
  destruct (existsb _ _) eqn:E; auto.
  apply existsb_exists in E. destruct E as [[n d] [Hin Hr]]. simpl in Hr.
  assert (Hn: In n (names t)).
  { apply tree_to_npz_keys. change n with (fst (n, d)). apply in_map. exact Hin. }
  destruct (Hres n Hn) as [H1 [H2 H3]]. unfold reserved in Hr.
  apply String.eqb_neq in H1, H2, H3. rewrite H1, H2, H3 in Hr. discriminate.
Qed.

Lemma restore_saved : forall s t f fb, storable t -> skeleton fb = skeleton t ->
  make_archive s t = Ok f -> restore_from_file f fb = Ok ((s + 1)%N, t).
Proof.
  intros s t f fb St Hsk Hf. rewrite make_archive_ok in Hf by assumption.
  injection Hf as <-. unfold restore_from_file, tree_from_npz. cbn [np_load bind dict_get String.eqb entries].
  change (String.eqb "step" "step") with true. cbn [entries].
  destruct St as [ND [Hres Hsc]].
  rewrite (from_npz_at_ok _ t fb []); auto.
  - simpl. rewrite N2Z.id. reflexivity.
  - intros pth l Hin. split; [|eapply Hsc; eauto]. cbn [app].
    assert (Hn: In (key_path pth) (names t)).
    { unfold names. apply in_map_iff. exists (pth, l). auto. }
    cbn [dict_get]. destruct (Hres _ Hn) as [Hn1 _]. apply String.eqb_neq in Hn1. rewrite Hn1.
    apply tree_to_npz_get; auto.
Qed.

(** ** Sufficient condition for distinct names *)
Lemma has_app : forall c a b, str_has c (a ++ b) = str_has c a || str_has c b.
Proof. induction a; simpl; intros; auto. rewrite IHa, orb_assoc. reflexivity. Qed.

Lemma app_sep_inj : forall a b x y,
  str_has "/" a = false -> str_has "/" b = false ->
  a ++ String "/" x = b ++ String "/" y -> a = b /\ x = y.
Proof.
  induction a; destruct b; intros x y Ha Hb E; cbn [append str_has] in *.
  - injection E as E. auto.
  - injection E as E1 E2. subst. simpl in Hb. discriminate.
  - injection E as E1 E2. subst. simpl in Ha. discriminate.
  - injection E as E1 E2. subst a1. apply orb_false_elim in Ha, Hb.
    destruct (IHa _ _ _ (proj2 Ha) (proj2 Hb) E2). subst. auto.
Qed.

Lemma app_sep_none : forall a b x,
  str_has "/" b = false -> a ++ String "/" x <> b.
Proof.
  intros a b x Hb E. rewrite <- E, has_app in Hb. simpl in Hb.
  rewrite orb_true_r in Hb. discriminate.
Qed.

Definition clean_path (p : list string) := Forall (fun k => str_has "/" k = false) p.

Lemma key_path_inj : forall p q, clean_path p -> clean_path q -> p <> [] -> q <> [] ->
  key_path p = key_path q -> p = q.
Proof.
  unfold key_path.
  induction p as [|a p IH]; intros q Cp Cq Np Nq E; [congruence|].
  destruct q as [|b q]; [congruence|].
  inversion Cp; subst; inversion Cq; subst.
  destruct p as [|a2 p]; destruct q as [|b2 q].
  - simpl in E. congruence.
  - exfalso. symmetry in E. cbn [str_join] in E. eapply (app_sep_none b a); [|exact E]; auto.
  - exfalso. cbn [str_join] in E. eapply (app_sep_none a b); [|exact E]; auto.
  - cbn [str_join] in E. change ("/" ++ ?x) with (String "/" x) in E.
    apply app_sep_inj in E; auto. destruct E as [-> E]. f_equal.
    apply IH; auto; congruence.
Qed.

Lemma clean_node : forall cs, clean_keys (Node cs) ->
  NoDup (map fst cs) /\ forall k c, In (k, c) cs -> str_has "/" k = false /\ clean_keys c.
Proof.
  intros cs [ND H]. split; auto. clear ND.
  induction cs as [|[k0 c0] cs IH]; intros k c Hin; [destruct Hin|].
  destruct H as [H1 [H2 H3]]. destruct Hin as [E|Hin]; [inversion E; subst; auto|]. apply IH; auto.
Qed.

Lemma clean_paths : forall t, clean_keys t ->
  forall pth l, In (pth, l) (leaves_with_path t) -> clean_path pth.
Proof.
  induction t as [l|cs IH] using tree_ind2; intros C pth l0 Hin.
  - destruct Hin as [E|[]]. inversion E. constructor.
  - rewrite leaves_node in Hin. apply clean_node in C. destruct C as [ND C].
    apply in_flat_map in Hin. destruct Hin as [[k c] [Hk Hin]]. simpl in Hin.
    apply in_map_iff in Hin. destruct Hin as [[p' l'] [E Hin]]. inversion E; subst.
    destruct (C k c Hk) as [Hs Hc]. constructor; auto. eapply IH; eauto.
Qed.

Lemma NoDup_app_intro : forall {A} (l1 l2 : list A),
  NoDup l1 -> NoDup l2 -> (forall x, In x l1 -> ~ In x l2) -> NoDup (l1 ++ l2)%list.
Proof.
  induction l1; simpl; intros l2 N1 N2 D; auto. inversion N1; subst. constructor.
  - rewrite in_app_iff. intros [H|H]; [auto | exact (D a (or_introl eq_refl) H)].
  - apply IHl1; auto.
Qed.

Lemma NoDup_map_inj : forall {A B} (g : A -> B) l,
  (forall x y, In x l -> In y l -> g x = g y -> x = y) -> NoDup l -> NoDup (map g l).
Proof.
  induction l; simpl; intros I N; [constructor|]. inversion N; subst. constructor.
  - rewrite in_map_iff. intros [x [E Hin]]. apply H1. rewrite <- (I x a); auto.
  - apply IHl; auto.
Qed.

Lemma paths_NoDup : forall t, clean_keys t -> NoDup (map fst (leaves_with_path t)).
Proof.
  induction t as [l|cs IH] using tree_ind2; intros C.
  - simpl. constructor; [auto | constructor].
  - rewrite leaves_node. apply clean_node in C. destruct C as [ND C].
    induction cs as [|[k c] cs IHcs]; simpl; [constructor|].
    rewrite map_app, map_map. simpl. inversion ND; subst.
    apply NoDup_app_intro.
    + rewrite <- (map_map fst (cons k)). apply NoDup_map_inj.
      * intros x y _ _ E. congruence.
      * apply (IH k c); [left; reflexivity|]. apply (C k c). left; reflexivity.
    + apply IHcs; auto.
      * intros k' c' Hin. apply (IH k' c'). right; exact Hin.
      * intros k' c' Hin. apply (C k' c'). right; exact Hin.
    + intros x Hx Hx'. apply in_map_iff in Hx. destruct Hx as [[p l] [E _]]. simpl in E. subst x.
      apply in_map_iff in Hx'. destruct Hx' as [[p' l'] [E Hin]]. simpl in E.
      apply in_flat_map in Hin. destruct Hin as [[k' c'] [Hk' Hin]]. simpl in Hin.
      apply in_map_iff in Hin. destruct Hin as [[p'' l''] [E2 _]]. unfold push in E2. simpl in E2.
      assert (k' = k) by congruence. subst k'.
      apply H1. change k with (fst (k, c')). apply in_map. exact Hk'.
Qed.

Lemma clean_names : forall t, clean_keys t -> NoDup (names t).
Proof.
  intros t C. unfold names. rewrite <- (map_map fst key_path).
  destruct t as [l|cs].
  - simpl. constructor; [auto | constructor].
  - apply NoDup_map_inj; [|apply paths_NoDup; auto].
    intros x y Hx Hy E.
    apply in_map_iff in Hx, Hy. destruct Hx as [[px lx] [Ex Hx]], Hy as [[py ly] [Ey Hy]].
    simpl in Ex, Ey. subst.
    apply key_path_inj; auto.
    + eapply clean_paths; eauto.
    + eapply clean_paths; eauto.
    + intros ->. rewrite leaves_node in Hx. apply in_flat_map in Hx. destruct Hx as [? [_ Hx]].
      apply in_map_iff in Hx. destruct Hx as [? [E2 _]]. inversion E2.
    + intros ->. rewrite leaves_node in Hy. apply in_flat_map in Hy. destruct Hy as [? [_ Hy]].
      apply in_map_iff in Hy. destruct Hy as [? [E2 _]]. inversion E2.
Qed.

(** ** Histories *)
Definition touches (e : event) : bool := match e with Crashed _ None => false | _ => true end.
Definition file_of (e : event) : option file :=
  match e with
  | Saved s t => match make_archive s t with Ok f => Some f | Raise _ => Some (Torn 0) end
  | Crashed _ (Some k) => Some (Torn k)
  | Crashed _ None => None
  end.

Lemma apply_event_eq : forall p d e,
  apply_event p d e = match file_of e with
                      | Some f => dict_set d (ckpt_name p (step_of e)) f
                      | None => d end.
Proof.
  intros p d [s t|s [k|]]; simpl; auto. unfold save.
  destruct (make_archive s t); reflexivity.
Qed.

Lemma run_events_NoDup : forall p h d, NoDup (map fst d) -> NoDup (map fst (run_events p d h)).
Proof.
  unfold run_events. induction h as [|e h IH]; simpl; intros d ND; auto.
  apply IH. rewrite apply_event_eq. destruct (file_of e); auto. apply dict_set_NoDup; auto.
Qed.

Lemma run_events_get : forall p h d s, small s -> Forall (fun e => small (step_of e)) h ->
  dict_get (run_events p d h) (ckpt_name p s) =
  match last_at h s with
  | Some e => file_of e
  | None => dict_get d (ckpt_name p s)
  end.
Proof.
  unfold run_events. induction h as [|e h IH]; simpl; intros d s Hs F; auto.
  inversion F; subst. rewrite IH by assumption. destruct (last_at h s) eqn:L; auto.
  rewrite apply_event_eq.
  destruct e as [se te|se [k|]]; cbn [file_of step_of]; auto.
  - destruct (N.eqb_spec se s).
    + subst. destruct (make_archive s te) eqn:E; rewrite dict_get_set_same; cbn [file_of]; rewrite E; reflexivity.
    + destruct (make_archive se te); rewrite dict_get_set_other; auto;
        intro E; apply ckpt_name_inj in E; auto.
  - destruct (N.eqb_spec se s).
    + subst. rewrite dict_get_set_same. reflexivity.
    + rewrite dict_get_set_other; auto. intro E; apply ckpt_name_inj in E; auto.
Qed.

Lemma run_events_names : forall p h d n f,
  no_ckpt p d -> NoDup (map fst d) ->
  In (n, f) (run_events p d h) -> glob_ckpt p n = true ->
  exists e, In e h /\ n = ckpt_name p (step_of e).
Proof.
  intros p h d n f Hno ND Hin Hg.
  assert (H: forall h d, In n (map fst (run_events p d h)) ->
    In n (map fst d) \/ exists e, In e h /\ n = ckpt_name p (step_of e)).
  { clear. unfold run_events. induction h as [|e h IH]; simpl; intros d H; auto.
    apply IH in H. destruct H as [H|[e' [H1 H2]]]; [|right; exists e'; auto].
    rewrite apply_event_eq in H. destruct (file_of e); auto.
    rewrite dict_set_keys_In in H. destruct H as [H|H]; auto. right. exists e; auto. }
  destruct (H h d) as [Hd|He]; auto.
  - change n with (fst (n, f)). apply in_map. exact Hin.
  - apply in_map_iff in Hd. destruct Hd as [[n' f'] [E Hin']]. simpl in E. subst n'.
    rewrite (Hno n f' Hin') in Hg. discriminate.
Qed.

(** Damage that restore can recognise. *)
Definition detectable (e : event) : Prop :=
  exists s k, e = Crashed s (Some k) /\ (k = 0%nat \/ (4 <= k)%nat).

Lemma torn_caught : forall k fb, (k = 0%nat \/ (4 <= k)%nat) ->
  exists e, restore_from_file (Torn k) fb = Raise e /\ caught e = true.
Proof.
  intros k fb [->|H].
  - exists EOFError. split; reflexivity.
  - exists BadZipFile. split; auto. destruct k as [|k]; [lia|].
    unfold restore_from_file, np_load. destruct (Nat.ltb_spec (S k) 4); [lia | reflexivity].
Qed.

Lemma last_at_step : forall h s e, last_at h s = Some e -> step_of e = s /\ In e h /\ touches e = true.
Proof.
  induction h as [|e0 h IH]; simpl; intros s e H; [discriminate|].
  destruct (last_at h s) eqn:L.
  - inversion H; subst. destruct (IH _ _ L) as [? [? ?]]. auto.
  - destruct e0 as [se te|se [k|]]; simpl in *; try discriminate;
      destruct (N.eqb_spec se s); try discriminate; inversion H; subst; auto.
Qed.

Theorem restore_after_history : forall p d h s t fb strict,
  NoDup (map fst d) -> no_ckpt p d ->
  Forall (fun e => small (step_of e)) h ->
  last_at h s = Some (Saved s t) -> storable t -> skeleton fb = skeleton t ->
  (forall s' e, (s < s')%N -> last_at h s' = Some e -> detectable e) ->
  restore p (Dir (run_events p d h)) fb strict = Ok ((s + 1)%N, t).
Proof.
  intros p d h s t fb strict ND Hno F L St Hsk Hnew.
  destruct (last_at_step _ _ _ L) as [_ [Hin _]].
  assert (Hs: small s).
  { rewrite Forall_forall in F. apply (F _ Hin). }
  eapply restore_dir_newest with (s := s)
    (f := Archive (("step", mkPayload [] [Z.of_N s]) :: tree_to_npz t)).
  - apply run_events_NoDup; auto.
  - intros n f Hin' Hg. destruct (run_events_names p h d n f Hno ND Hin' Hg) as [e [He ->]].
    exists (step_of e). split; auto. rewrite Forall_forall in F. auto.
  - exact Hs.
  - apply dict_get_In. rewrite run_events_get by assumption. rewrite L. cbn [file_of].
    rewrite make_archive_ok by assumption. reflexivity.
  - eapply restore_saved; eauto. apply make_archive_ok; auto.
  - intros s' f' Hs' Hin' Hlt.
    apply In_dict_get in Hin'; [|apply run_events_NoDup; auto].
    rewrite run_events_get in Hin' by assumption.
    destruct (last_at h s') eqn:L'.
    + destruct (Hnew _ _ Hlt L') as [s0 [k [-> Hk]]]. simpl in Hin'.
      inversion Hin'; subst. apply torn_caught; auto.
    + exfalso. apply dict_get_In in Hin'. apply Hno in Hin'. rewrite glob_own in Hin'. discriminate.
Qed.

Theorem restore_all_torn : forall p d h fb strict,
  NoDup (map fst d) -> no_ckpt p d ->
  Forall (fun e => small (step_of e)) h ->
  (forall s e, last_at h s = Some e -> detectable e) ->
  (exists e, In e h /\ touches e = true) ->
  restore p (Dir (run_events p d h)) fb strict =
    if strict then Raise RuntimeError else Ok (0%N, fb).
Proof.
  intros p d h fb strict ND Hno F Hall [e0 [He0 Ht0]].
  set (es := run_events p d h).
  set (l := filter (fun e => glob_ckpt p (fst e)) es).
  assert (T: try_files (sort_desc l) fb strict = if strict then Raise RuntimeError else Ok (0%N, fb)).
  { apply try_all_torn. intros n f Hin.
    eapply Permutation_in in Hin; [|apply Permutation_sym, sort_desc_perm].
    apply filter_In in Hin. destruct Hin as [Hin Hg]. simpl in Hg.
    destruct (run_events_names p h d n f Hno ND Hin Hg) as [e [He ->]].
    assert (Hs: small (step_of e)) by (rewrite Forall_forall in F; auto).
    apply In_dict_get in Hin; [|apply run_events_NoDup; auto].
    unfold es in Hin. rewrite run_events_get in Hin by assumption.
    destruct (last_at h (step_of e)) eqn:L'.
    - destruct (Hall _ _ L') as [s0 [k [-> Hk]]]. simpl in Hin. inversion Hin; subst.
      apply torn_caught; auto.
    - exfalso. apply dict_get_In in Hin. apply Hno in Hin. rewrite glob_own in Hin. discriminate. }
  simpl. fold es l. destruct (sort_desc l) eqn:E; auto.
  (* no candidate at all: impossible, something touched the directory *)
  exfalso.
  assert (Hs0: small (step_of e0)) by (rewrite Forall_forall in F; auto).
  assert (Hex: exists e, last_at h (step_of e0) = Some e).
  { clear -He0 Ht0. induction h as [|e h IH]; [destruct He0|]. simpl.
    destruct He0 as [->|He0].
    - destruct (last_at h (step_of e0)); eauto. destruct e0 as [? ?|? [?|]]; simpl in *; try discriminate;
        rewrite N.eqb_refl; eauto.
    - destruct (IH He0) as [e' ->]. eauto. }
  destruct Hex as [e He].
  assert (G: exists f, dict_get es (ckpt_name p (step_of e0)) = Some f).
  { unfold es. rewrite run_events_get by assumption. rewrite He.
    destruct (Hall _ _ He) as [s0 [k [-> _]]]. simpl. eauto. }
  destruct G as [f Hf]. apply dict_get_In in Hf.
  assert (Hl: In (ckpt_name p (step_of e0), f) l).
  { apply filter_In. split; auto. apply glob_own. }
  eapply Permutation_in in Hl; [|apply sort_desc_perm]. rewrite E in Hl. destruct Hl.
Qed.

(** ** Strict and lenient restore *)
Lemma try_files_ok : forall l fb strict r, try_files l fb strict = Ok r ->
  (exists n f, In (n, f) l /\ restore_from_file f fb = Ok r) \/ (strict = false /\ r = (0%N, fb)).
Proof.
  induction l as [|[n f] l IH]; simpl; intros fb strict r H.
  - destruct strict; [discriminate|]. inversion H. auto.
  - destruct (restore_from_file f fb) eqn:E.
    + inversion H; subst. left. exists n, f. auto.
    + destruct (caught e); [|discriminate]. destruct (IH _ _ _ H) as [[n' [f' [? ?]]]|?]; auto.
      left. exists n', f'. auto.
Qed.

Lemma restore_ok : forall p rp fb strict r, restore p rp fb strict = Ok r ->
  (rp = Missing /\ strict = false /\ r = (0%N, fb)) \/
  (exists f, rp = AFile f /\ restore_from_file f fb = Ok r) \/
  (exists es, rp = Dir es /\
     ((exists n f, In (n, f) es /\ glob_ckpt p n = true /\ restore_from_file f fb = Ok r) \/
      (strict = false /\ r = (0%N, fb)))).
Proof.
  intros p [|f|es] fb strict r H; simpl in H.
  - destruct strict; [discriminate|]. inversion H. auto.
  - right; left. eauto.
  - right; right. exists es. split; auto.
    set (l := sort_desc _) in H.
    assert (H': (strict = false /\ r = (0%N, fb)) \/ try_files l fb strict = Ok r).
    { destruct l; [|right; exact H]. left. destruct strict; [discriminate|]. inversion H. auto. }
    clear H. destruct H' as [H|H]; auto.
    + unfold l in H. apply try_files_ok in H. destruct H as [[n [f [Hin Hf]]]|H]; auto.
      left. exists n, f. eapply Permutation_in in Hin; [|apply Permutation_sym, sort_desc_perm].
      apply filter_In in Hin. tauto.
Qed.

(** ** Prefix isolation *)
Fixpoint nodigit_us (s : string) : bool := (* no underscore *)
  match s with EmptyString => true | String c s' => negb (Ascii.eqb c "_") && nodigit_us s' end.

Lemma digit_char_ne_us : forall n, Ascii.eqb (digit_char (n mod 10)) "_" = false.
Proof.
  intros. apply Ascii.eqb_neq. intro E.
  assert (N_of_ascii (digit_char (n mod 10)) = 95%N) by (rewrite E; reflexivity).
  unfold digit_char in H. rewrite N_ascii_embedding in H.
  - pose proof (N.mod_lt n 10 ltac:(discriminate)). lia.
  - pose proof (N.mod_lt n 10 ltac:(discriminate)). lia.
Qed.

Lemma nous_app : forall a b, nodigit_us (a ++ b) = nodigit_us a && nodigit_us b.
Proof. induction a; simpl; intros; auto. rewrite IHa, andb_assoc. reflexivity. Qed.

Lemma nous_digits : forall k n, nodigit_us (digits k n) = true.
Proof.
  induction k; simpl; intros; auto. rewrite nous_app, IHk. simpl.
  rewrite digit_char_ne_us. reflexivity.
Qed.

(** If [a ++ "_"] is a prefix of [b ++ d] and [d] has no underscore, it is a prefix of [b]. *)
Lemma prefix_us : forall a b d x, nodigit_us d = true ->
  b ++ d = a ++ String "_" x -> exists y, b = a ++ String "_" y.
Proof.
  induction a; intros b d x Hd E.
  - destruct b as [|c b]; simpl in E.
    + subst d. simpl in Hd. discriminate.
    + injection E as -> E. exists b. reflexivity.
  - destruct b as [|c b]; simpl in E.
    + subst d. simpl in Hd. apply andb_prop in Hd. destruct Hd as [_ Hd].
      rewrite nous_app in Hd. simpl in Hd. rewrite andb_false_r in Hd. discriminate.
    + injection E as -> E. destruct (IHa _ _ _ Hd E) as [y ->]. exists y. reflexivity.
Qed.

Lemma norm_prefix_inj : forall p q, norm_prefix p = norm_prefix q -> p = q.
Proof.
  unfold norm_prefix. intros p q.
  destruct (String.eqb_spec p ""), (String.eqb_spec q ""); subst; intro E; auto.
  - destruct q; discriminate.
  - destruct p; discriminate.
  - clear -E. revert q E. induction p; destruct q; simpl; intro E; auto.
    + injection E as E1 E2. destruct q; discriminate.
    + injection E as E1 E2. destruct p; discriminate.
    + injection E as -> E. f_equal. auto.
Qed.

Lemma glob_iff : forall p q s,
  glob_ckpt p (ckpt_name q s) = true <->
  p = q \/ exists rest, norm_prefix q = norm_prefix p ++ "ckpt_" ++ rest.
Proof.
  intros p q s. split.
  - unfold glob_ckpt. intro H. apply andb_prop in H. destruct H as [H _].
    apply prefix_true_s in H. destruct H as [x E].
    unfold ckpt_name in E.
    assert (Hd: nodigit_us (fmt06 s ++ ".npz") = true).
    { rewrite nous_app. unfold fmt06. rewrite nous_digits. reflexivity. }
    assert (E1: (norm_prefix q ++ "ckpt_") ++ (fmt06 s ++ ".npz") = (norm_prefix p ++ "ckpt") ++ String "_" x).
    { rewrite !app_assoc_s. rewrite E, !app_assoc_s. reflexivity. }
    destruct (prefix_us _ _ _ _ Hd E1) as [y E2].
    (* either y is empty or the head lies inside the other prefix *)
    destruct y as [|c y].
    + left. symmetry. apply norm_prefix_inj.
      assert (E3: norm_prefix q ++ "ckpt_" = norm_prefix p ++ "ckpt_").
      { rewrite E2, app_assoc_s. reflexivity. }
      clear -E3. revert E3. generalize (norm_prefix q) (norm_prefix p). intros a b E.
      assert (L: String.length a = String.length b).
      { apply (f_equal String.length) in E. rewrite !length_app_s in E. simpl in E. lia. }
      apply (app_eq_len_s _ _ _ _ L E).
    + right.
      (* drop the trailing "ckpt_" by lengths: the head ends with an underscore *)
      assert (E3: norm_prefix q ++ "ckpt_" = (norm_prefix p ++ "ckpt") ++ String "_" (String c y)) by exact E2.
      assert (Hq: exists z, norm_prefix q = (norm_prefix p ++ "ckpt") ++ String "_" z).
      { clear -E3. revert E3. generalize (norm_prefix p ++ "ckpt") (norm_prefix q). intros a b.
        revert b. induction a as [|a0 a IH]; intros b E.
        - destruct b as [|b0 b]; [discriminate|]. simpl in E. injection E as -> E. exists b. reflexivity.
        - destruct b as [|b0 b].
          + exfalso. apply (f_equal nodigit_us) in E as E'. simpl in E.
            do 4 (destruct a as [|? a]; [simpl in E; discriminate|]; simpl in E).
            destruct a; simpl in E; discriminate.
          + simpl in E. injection E as -> E. destruct (IH _ E) as [z ->]. exists z. reflexivity. }
      destruct Hq as [z Hz]. exists z. rewrite Hz, app_assoc_s. reflexivity.
  - intros [->|[rest E]].
    + apply glob_own.
    + unfold glob_ckpt, ckpt_name. rewrite E, !app_assoc_s.
      set (tl := (rest ++ _)).
      replace (norm_prefix p ++ "ckpt_" ++ tl) with ((norm_prefix p ++ "ckpt_") ++ tl)
        by (rewrite app_assoc_s; reflexivity).
      rewrite prefix_app_s, str_drop_app. simpl. unfold tl.
      rewrite <- !app_assoc_s. apply suffixb_app.
Qed.

(** ** What a successful read contains *)
Lemma from_npz_at_sound : forall npf ref pre t,
  tree_from_npz_at npf pre ref = Ok t ->
  skeleton t = skeleton ref /\
  forall pth l, In (pth, l) (leaves_with_path t) ->
    exists d, dict_get npf (key_path (pre ++ pth)%list) = Some d /\ entries (ldata l) = entries d.
Proof.
  intros npf ref. induction ref as [rl|cs IH] using tree_ind2; intros pre t H.
  - cbn [tree_from_npz_at] in H. destruct (from_npz (key_path pre) npf rl) as [l'|] eqn:E; [|discriminate].
    simpl in H. injection H as <-. unfold from_npz in E.
    destruct (dict_get npf (key_path pre)) as [d|] eqn:G; [|discriminate].
    assert (Hl: lkind l' = lkind rl /\ entries (ldata l') = entries d).
    { destruct (lkind rl) eqn:K.
      - destruct (entries d) as [|z [|z2 zs]] eqn:En; try discriminate. injection E as <-.
        simpl. auto.
      - injection E as <-. auto.
      - injection E as <-. auto. }
    destruct Hl as [Hk He]. split.
    + simpl. rewrite Hk. reflexivity.
    + intros pth l [E'|[]]. inversion E'; subst. rewrite app_nil_r. exists d. auto.
  - cbn [tree_from_npz_at] in H.
    match type of H with bind ?x _ = _ => destruct x as [cs'|] eqn:G; [|discriminate] end.
    simpl in H. injection H as <-.
    assert (P: map (fun kc => (fst kc, skeleton (snd kc))) cs' = map (fun kc => (fst kc, skeleton (snd kc))) cs /\
      forall pth l, In (pth, l) (leaves_with_path (Node cs')) ->
      exists d, dict_get npf (key_path (pre ++ pth)%list) = Some d /\ entries (ldata l) = entries d).
    { revert cs' G. induction cs as [|[k c] cs IHcs]; intros cs' G.
      - injection G as <-. split; auto. intros pth l [].
      - destruct (tree_from_npz_at npf (pre ++ [k]) c) as [c'|] eqn:Ec; [|discriminate].
        cbn [bind] in G.
        match type of G with bind ?x _ = _ => destruct x as [r|] eqn:Er; [|discriminate] end.
        cbn [bind] in G. injection G as <-.
        destruct (IH k c (or_introl eq_refl) _ _ Ec) as [S1 L1].
        destruct (IHcs (fun k' c' H => IH k' c' (or_intror H)) r eq_refl) as [S2 L2].
        split.
        + simpl. rewrite S1, S2. reflexivity.
        + intros pth l Hin. rewrite leaves_node in Hin. cbn [flat_map] in Hin.
          apply in_app_or in Hin. destruct Hin as [Hin|Hin].
          * apply in_map_iff in Hin. destruct Hin as [[p' l'] [E Hin]]. unfold push in E. simpl in E.
            inversion E; subst. cbn [snd] in Hin. destruct (L1 _ _ Hin) as [d [Hd He]].
            exists d. rewrite <- app_assoc in Hd. auto.
          * apply L2. rewrite leaves_node. exact Hin. }
    destruct P as [P1 P2]. split; auto. simpl. rewrite P1. reflexivity.
Qed.

Lemma restore_from_file_sound : forall f fb n t, restore_from_file f fb = Ok (n, t) ->
  exists npf s d, f = Archive npf /\ dict_get npf "step" = Some d /\ entries d = [s] /\
    n = (Z.to_N s + 1)%N /\ skeleton t = skeleton fb /\
    forall pth l, In (pth, l) (leaves_with_path t) ->
      exists d, dict_get npf (key_path pth) = Some d /\ entries (ldata l) = entries d.
Proof.
  intros f fb n t H. unfold restore_from_file in H.
  destruct f as [npf|k].
  - cbn [np_load bind] in H. destruct (dict_get npf "step") as [d|] eqn:G; [|discriminate].
    destruct (entries d) as [|s [|? ?]] eqn:En; try discriminate.
    destruct (tree_from_npz npf fb) as [t'|] eqn:T; [|discriminate]. cbn [bind] in H.
    injection H as <- <-. unfold tree_from_npz in T. apply from_npz_at_sound in T.
    destruct T as [T1 T2]. exists npf, s, d. repeat split; auto.
  - destruct k as [|k]; [discriminate|]. cbn [np_load] in H.
    destruct (Nat.ltb (S k) 4); discriminate.
Qed.
