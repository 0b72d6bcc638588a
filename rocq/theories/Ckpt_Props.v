(** Theorems about checkpoints (C01-C05). *)
From Coq Require Import String Ascii List Bool Arith ZArith NArith Lia Permutation.
From Verif Require Import Common Common_Proofs Ckpt_Model Ckpt_Spec Ckpt_Proofs.
Import ListNotations.
Open Scope string_scope.

(** ** C01  Restore picks the newest checkpoint

    For every directory that held no checkpoint of this prefix, every sequence of
    completed saves in any order of steps (each below one million), every step [s]
    that is the largest one saved, restoring gives the tree saved last at [s] and
    the step after it. *)
Theorem C01_restore_newest_partial : forall prefix d saves s t fallback strict,
  NoDup (map fst d) -> no_ckpt prefix d ->
  (forall e, In e saves -> exists s' t', e = Saved s' t' /\ (s' < 1000000)%N /\ (s' <= s)%N) ->
  last_at saves s = Some (Saved s t) -> storable t -> skeleton fallback = skeleton t ->
  restore prefix (Dir (run_events prefix d saves)) fallback strict = Ok ((s + 1)%N, t).
Proof.
  intros prefix d saves s t fb strict ND Hno Hs L St Sk.
  apply restore_after_history with (s := s); auto.
  - apply Forall_forall. intros e He. destruct (Hs e He) as [s' [t' [-> [H _]]]]. exact H.
  - intros s' e Hlt L'. exfalso. destruct (last_at_step _ _ _ L') as [Hst [Hin _]].
    destruct (Hs e Hin) as [s2 [t2 [-> [_ Hle]]]]. simpl in Hst. lia.
Qed.
Print Assumptions C01_restore_newest_partial.

(** The directory listing may come in any order: no hypothesis above orders it, and
    the result does not depend on it. *)
Definition leaf1 (z : Z) : tree := Node [("w", Leaf (mkLeaf KJnp (mkPayload [1%nat] [z])))].

Example C01_witness :
  restore "train" (Dir (run_events "train" [("config.yaml", Archive [])]
      [Saved 199999 (leaf1 7); Saved 9 (leaf1 5); Saved 12 (leaf1 6)])) (leaf1 0) true
  = Ok (200000%N, leaf1 7).
Proof. reflexivity. Qed.

(** Beyond 999999 the claim is false: names are compared as text, and
    "ckpt_1000000" sorts before "ckpt_999999". *)
Theorem C01_restore_newest_refuted :
  exists saves s t fallback,
    (forall e, In e saves -> exists s' t', e = Saved s' t' /\ (s' <= s)%N) /\
    last_at saves s = Some (Saved s t) /\ storable t /\ skeleton fallback = skeleton t /\
    exists t_old, t_old <> t /\
      restore "train" (Dir (run_events "train" [] saves)) fallback true = Ok (1000000%N, t_old).
Proof.
  exists [Saved 999999 (leaf1 1); Saved 1000000 (leaf1 2)], 1000000%N, (leaf1 2), (leaf1 0).
  split; [|split; [|split; [|split]]].
  - intros e [<-|[<-|[]]]; eexists; eexists; (split; [reflexivity|lia]).
  - reflexivity.
  - split; [|split].
    + simpl. constructor; [simpl; tauto|constructor].
    + simpl. intros n [<-|[]]. repeat split; discriminate.
    + simpl. intros p l [E|[]]. inversion E; subst. intro H; discriminate.
  - reflexivity.
  - exists (leaf1 1). split; [discriminate|]. vm_compute. reflexivity.
Qed.
Print Assumptions C01_restore_newest_refuted.

(** ** C02  Round trip *)
Theorem C02_round_trip : forall prefix d step t fallback,
  storable t -> skeleton fallback = skeleton t ->
  exists f, snd (save prefix d step t) = Ok tt /\
    dict_get (fst (save prefix d step t)) (ckpt_name prefix step) = Some f /\
    restore prefix (AFile f) fallback true = Ok ((step + 1)%N, t).
Proof.
  intros prefix d step t fb St Sk. unfold save.
  pose proof (make_archive_ok step t St) as M. rewrite M. cbn [fst snd].
  eexists. split; [reflexivity|]. split.
  - unfold put_file. apply dict_get_set_same.
  - simpl restore. eapply restore_saved; eauto.
Qed.
Print Assumptions C02_round_trip.

(** Key paths are distinct whenever the keys of each mapping are distinct and contain
    no slash: this is the case of every tree with ordinary field names. *)
Theorem C02_distinct_names : forall t, clean_keys t -> NoDup (names t).
Proof. exact clean_names. Qed.
Print Assumptions C02_distinct_names.

Definition big : tree :=
  Node [("params", Node [("w", Leaf (mkLeaf KJnp (mkPayload [2%nat] [3%Z; 4%Z])));
                         ("b", Leaf (mkLeaf KNp (mkPayload [] [5%Z])))]);
        ("count", Leaf (mkLeaf KPy (mkPayload [] [9%Z]))); ("none", Node [])].
Example C02_witness : storable big /\ clean_keys big.
Proof.
  split.
  - assert (clean_keys big) as C.
    { simpl. repeat split; repeat constructor; simpl; intuition discriminate. }
    split; [exact (clean_names _ C)|]. split.
    + simpl. intros n [<-|[<-|[<-|[]]]]; repeat split; discriminate.
    + simpl. intros p l [E|[E|[E|[]]]]; inversion E; subst; intro H; try discriminate.
      exists 9%Z. reflexivity.
  - simpl. repeat split; repeat constructor; simpl; intuition discriminate.
Qed.

(** Without distinct key paths the round trip silently loses data: the keys ["a/b"]
    and ["a"]["b"] share one archive entry. *)
Theorem C02_slash_keys_refuted :
  exists t f, NoDup (map fst (leaves_with_path t)) /\
    make_archive 0 t = Ok f /\
    exists t', restore_from_file f t = Ok (1%N, t') /\ t' <> t.
Proof.
  exists (Node [("a/b", Leaf (mkLeaf KJnp (mkPayload [] [1%Z])));
                ("a", Node [("b", Leaf (mkLeaf KJnp (mkPayload [] [2%Z])))])]).
  eexists. split; [|split; [vm_compute; reflexivity|]].
  - simpl. repeat constructor; simpl; intuition discriminate.
  - eexists. split; [vm_compute; reflexivity|discriminate].
Qed.
Print Assumptions C02_slash_keys_refuted.

(** A top-level leaf called "step" makes every save fail, and the failed save leaves an
    empty file behind. *)
Theorem C02_reserved_name_refuted : forall prefix d step l,
  save prefix d step (Node [("step", Leaf l)])
  = (put_file d (ckpt_name prefix step) (Torn 0), Raise TypeError).
Proof. reflexivity. Qed.
Print Assumptions C02_reserved_name_refuted.

(** ** C03  Torn checkpoints

    Histories mix completed saves and saves cut off at an arbitrary byte.  If the
    newest completed save that nothing overwrote is at [s], and everything that later
    steps left behind is damage of zero or at least four bytes, restore returns
    exactly that save. *)
Theorem C03_torn_skipped_partial : forall prefix d h s t fallback strict,
  NoDup (map fst d) -> no_ckpt prefix d ->
  Forall (fun e => (step_of e < 1000000)%N) h ->
  last_at h s = Some (Saved s t) -> storable t -> skeleton fallback = skeleton t ->
  (forall s' e, (s < s')%N -> last_at h s' = Some e ->
     exists k, e = Crashed s' (Some k) /\ (k = 0 \/ 4 <= k)%nat) ->
  restore prefix (Dir (run_events prefix d h)) fallback strict = Ok ((s + 1)%N, t).
Proof.
  intros. eapply restore_after_history; eauto.
  intros s' e Hlt L. destruct (H5 s' e Hlt L) as [k [-> Hk]]. exists s', k. auto.
Qed.
Print Assumptions C03_torn_skipped_partial.

(** When nothing but such damage exists, lenient restore starts fresh and strict
    restore reports it. *)
Theorem C03_all_torn_partial : forall prefix d h fallback strict,
  NoDup (map fst d) -> no_ckpt prefix d ->
  Forall (fun e => (step_of e < 1000000)%N) h ->
  (forall s e, last_at h s = Some e -> exists k, e = Crashed s (Some k) /\ (k = 0 \/ 4 <= k)%nat) ->
  (exists s k, In (Crashed s (Some k)) h) ->
  restore prefix (Dir (run_events prefix d h)) fallback strict =
    if strict then Raise RuntimeError else Ok (0%N, fallback).
Proof.
  intros. apply restore_all_torn; auto.
  - intros s e L. destruct (H2 s e L) as [k [-> Hk]]. exists s, k. auto.
  - destruct H3 as [s [k H3]]. exists (Crashed s (Some k)). auto.
Qed.
Print Assumptions C03_all_torn_partial.

Example C03_witness :
  restore "train" (Dir (run_events "train" []
     [Saved 99 (leaf1 4); Saved 199 (leaf1 5); Crashed 299 (Some 1000); Crashed 399 (Some 0);
      Crashed 499 None])) (leaf1 0) true
  = Ok (200%N, leaf1 5).
Proof. vm_compute. reflexivity. Qed.

(** Damage of one to three bytes is not skipped: numpy raises ValueError, which the
    loop does not catch, so a good older checkpoint becomes unreachable. *)
Theorem C03_torn_refuted : forall k, (1 <= k <= 3)%nat ->
  exists h s t fallback, last_at h s = Some (Saved s t) /\ storable t /\
    (forall s' e, (s < s')%N -> last_at h s' = Some e -> e = Crashed s' (Some k)) /\
    restore "train" (Dir (run_events "train" [] h)) fallback false = Raise ValueError.
Proof.
  intros k Hk. exists [Saved 99 (leaf1 4); Crashed 199 (Some k)], 99%N, (leaf1 4), (leaf1 0).
  split; [reflexivity|]. split; [|split].
  - split; [|split].
    + simpl. constructor; [simpl; tauto|constructor].
    + simpl. intros n [<-|[]]. repeat split; discriminate.
    + simpl. intros p l [E|[]]. inversion E; subst. intro H; discriminate.
  - intros s' e Hlt. cbn [last_at step_of]. destruct (N.eqb_spec 199 s').
    + subst s'. intro E. inversion E. reflexivity.
    + destruct (N.eqb_spec 99 s'); [lia|discriminate].
  - destruct k as [|[|[|[|k]]]]; try lia; vm_compute; reflexivity.
Qed.
Print Assumptions C03_torn_refuted.

(** ** C04  Strict and lenient restore *)
(** Strict restore that returns, returns what is stored in a completely written
    checkpoint at the path (or in a matching file of the directory). *)
Theorem C04_strict_returns_stored : forall prefix path fallback n t,
  restore prefix path fallback true = Ok (n, t) ->
  exists f npf s d,
    (path = AFile f \/ exists es name, path = Dir es /\ In (name, f) es /\ glob_ckpt prefix name = true) /\
    f = Archive npf /\ dict_get npf "step" = Some d /\ entries d = [s] /\
    n = (Z.to_N s + 1)%N /\ skeleton t = skeleton fallback /\
    forall pth l, In (pth, l) (leaves_with_path t) ->
      exists d, dict_get npf (key_path pth) = Some d /\ entries (ldata l) = entries d.
Proof.
  intros prefix path fb n t H. apply restore_ok in H.
  destruct H as [[_ [H _]]|[[f [-> H]]|[es [-> [[nm [f [Hin [Hg H]]]]|[H _]]]]]]; try discriminate;
    apply restore_from_file_sound in H; destruct H as [npf [s [d [-> [H1 [H2 [H3 [H4 H5]]]]]]]];
    exists (Archive npf), npf, s, d; repeat split; auto.
  right. exists es, nm. auto.
Qed.
Print Assumptions C04_strict_returns_stored.

(** In any mode the result is either such a checkpoint or, only when lenient, the
    caller's own state at step 0. *)
Theorem C04_lenient : forall prefix path fallback r,
  restore prefix path fallback false = Ok r ->
  r = (0%N, fallback) \/ restore prefix path fallback true = Ok r \/
  (exists f es name, path = Dir es /\ In (name, f) es /\ restore_from_file f fallback = Ok r).
Proof.
  intros prefix path fb r H. pose proof H as H0. apply restore_ok in H.
  destruct H as [[_ [_ H]]|[[f [-> H]]|[es [-> [[nm [f [Hin [Hg H]]]]|[_ H]]]]]]; auto.
  right; right. exists f, es, nm. auto.
Qed.
Print Assumptions C04_lenient.

Theorem C04_nothing_there : forall prefix fallback es,
  no_ckpt prefix es ->
  restore prefix Missing fallback false = Ok (0%N, fallback) /\
  restore prefix (Dir es) fallback false = Ok (0%N, fallback) /\
  restore prefix Missing fallback true = Raise FileNotFoundError /\
  restore prefix (Dir es) fallback true = Raise FileNotFoundError.
Proof.
  intros prefix fb es H.
  assert (E: filter (fun e => glob_ckpt prefix (fst e)) es = []).
  { induction es as [|[n f] es IH]; auto. simpl. rewrite (H n f) by (left; reflexivity).
    apply IH. intros n' f' Hin. apply (H n' f'). right; exact Hin. }
  repeat split; try reflexivity; unfold restore; rewrite E; reflexivity.
Qed.
Print Assumptions C04_nothing_there.

Example C04_witness : no_ckpt "train" [("config.yaml", Torn 3); ("pretrain_ckpt_000001.npz", Archive [])].
Proof. intros n f [E|[E|[]]]; inversion E; reflexivity. Qed.

(** ** C05  Prefix isolation

    The restore of one stage looks at a checkpoint of another stage exactly when the
    other stage's file prefix starts with this one's followed by "ckpt_". *)
Theorem C05_prefix_isolation_iff : forall mine other step,
  glob_ckpt mine (ckpt_name other step) = true <->
  mine = other \/ exists rest, norm_prefix other = norm_prefix mine ++ "ckpt_" ++ rest.
Proof. exact glob_iff. Qed.
Print Assumptions C05_prefix_isolation_iff.

(** Every stage prefix that does not contain the text "ckpt_" is therefore safe: its
    files are invisible to every other stage. *)
Theorem C05_restore_ignores_other_stages : forall mine other h d fallback strict,
  mine <> other ->
  (forall rest, norm_prefix other <> norm_prefix mine ++ "ckpt_" ++ rest) ->
  NoDup (map fst d) ->
  restore mine (Dir (run_events other d h)) fallback strict
  = restore mine (Dir d) fallback strict.
Proof.
  intros mine other h d fb strict Hne Hpre ND.
  assert (G: forall s, glob_ckpt mine (ckpt_name other s) = false).
  { intros s. destruct (glob_ckpt mine (ckpt_name other s)) eqn:E; auto.
    apply glob_iff in E. destruct E as [E|[r E]]; [congruence|]. exfalso. exact (Hpre r E). }
  assert (F: filter (fun e => glob_ckpt mine (fst e)) (run_events other d h)
           = filter (fun e => glob_ckpt mine (fst e)) d).
  { revert d ND. unfold run_events. induction h as [|e h IH]; intros d ND; auto. cbn [fold_left].
    rewrite IH.
    - rewrite apply_event_eq. destruct (file_of e) as [f|]; auto.
      clear -G. induction d as [|[n g] d IHd]; cbn [dict_set filter fst].
      + rewrite G. reflexivity.
      + destruct (String.eqb_spec (ckpt_name other (step_of e)) n); cbn [filter fst].
        * subst n. rewrite G. reflexivity.
        * rewrite IHd. reflexivity.
    - rewrite apply_event_eq. destruct (file_of e); auto. apply dict_set_NoDup; auto. }
  unfold restore. rewrite F. reflexivity.
Qed.
Print Assumptions C05_restore_ignores_other_stages.

(** The stages of the shipped workflows: "pretrain" and "train" do not see each other,
    in either direction, although "train" is a suffix of "pretrain". *)
Theorem C05_pretrain_train : forall h d fallback strict, NoDup (map fst d) ->
  restore "train" (Dir (run_events "pretrain" d h)) fallback strict = restore "train" (Dir d) fallback strict /\
  restore "pretrain" (Dir (run_events "train" d h)) fallback strict = restore "pretrain" (Dir d) fallback strict.
Proof.
  intros. split; apply C05_restore_ignores_other_stages; auto; try discriminate; intros rest E; simpl in E; discriminate.
Qed.
Print Assumptions C05_pretrain_train.

(** Without the condition isolation fails: an unprefixed stage reads the files of a
    stage called "ckpt_a". *)
Theorem C05_isolation_refuted :
  exists mine other, mine <> other /\
    restore mine (Dir (run_events other [] [Saved 3 (leaf1 1)])) (leaf1 0) true = Ok (4%N, leaf1 1).
Proof. exists "", "ckpt_a". split; [discriminate|]. vm_compute. reflexivity. Qed.
Print Assumptions C05_isolation_refuted.
