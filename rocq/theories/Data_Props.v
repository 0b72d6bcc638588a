(** C54: laws of the data container. *)
From Coq Require Import String List Bool Arith Lia.
From Verif Require Import Common Common_Proofs Data_Model.
Import ListNotations.
Open Scope string_scope.

Lemma known_In V (d : data V) k : known V d k = true <-> In k (map fst d).
Proof.
  unfold known, field_names. rewrite existsb_exists. split.
  - intros (x & H & E). apply String.eqb_eq in E. congruence.
  - intros H. exists k. rewrite String.eqb_refl. auto.
Qed.

Lemma forallb_known V (d : data V) l : forallb (known V d) l = true <-> forall k, In k l -> In k (map fst d).
Proof. rewrite forallb_forall. split; intros H k Hk; apply known_In || apply <- known_In; auto. Qed.

(** subset: exactly the requested fields, with their values; unknown names raise. *)
Theorem C54_subset_exact : forall V (d : data V) fields r, subset V d fields = Ok r ->
  (forall k, In k fields -> exists v, dict_get d k = Some v /\ dict_get r k = Some v) /\
  (forall k, ~ In k fields -> dict_get r k = None).
Proof.
  intros V d fields r. unfold subset. destruct (forallb (known V d) fields) eqn:K; [|discriminate].
  rewrite forallb_known in K. intros E. inversion E; subst; clear E.
  assert (G : forall l acc k, (forall k, In k l -> In k (map fst d)) ->
    dict_get (fold_left (fun acc k => match dict_get d k with Some v => dict_set acc k v | None => acc end) l acc) k =
    if in_dec string_dec k l then dict_get d k else dict_get acc k).
  { induction l as [|a l IH]; intros acc k Hl; auto. cbn [fold_left]. rewrite IH by (intros; apply Hl; right; auto).
    destruct (in_dec string_dec k l) as [I|N].
    - destruct (in_dec string_dec k (a :: l)) as [|C]; auto. exfalso; apply C; right; auto.
    - destruct (dict_get d a) as [v|] eqn:Ga.
      2:{ exfalso. apply dict_get_None in Ga. apply Ga, Hl. left; auto. }
      destruct (string_dec a k) as [->|Ne].
      + rewrite dict_get_set_same. destruct (in_dec string_dec k (k :: l)) as [|C]; auto.
        exfalso; apply C; left; auto.
      + rewrite dict_get_set_other by auto. destruct (in_dec string_dec k (a :: l)) as [[|]|]; auto; contradiction. }
  split; intros k Hk; rewrite G by auto.
  - destruct (in_dec string_dec k fields); [|contradiction].
    destruct (dict_get d k) as [v|] eqn:E; eauto. exfalso. apply dict_get_None in E. auto.
  - destruct (in_dec string_dec k fields); [contradiction|reflexivity].
Qed.

Theorem C54_subset_raises_iff_unknown : forall V (d : data V) fields,
  subset V d fields = Raise KeyError <-> exists k, In k fields /\ ~ In k (map fst d).
Proof.
  intros V d fields. unfold subset. destruct (forallb (known V d) fields) eqn:K.
  - rewrite forallb_known in K. split; [discriminate|]. intros (k & A & B). exfalso; auto.
  - split; auto. intros _. 
    destruct (forallb_forall (known V d) fields) as [_ F].
    assert (X : exists k, In k fields /\ known V d k = false).
    { clear F. induction fields as [|a l IH]; [discriminate|]. simpl in K. destruct (known V d a) eqn:E.
      - destruct IH as (k & A & B); auto. exists k; split; auto. right; auto.
      - exists a. split; auto. left; auto. }
    destruct X as (k & A & B). exists k; split; auto. intros C. apply known_In in C. congruence.
Qed.

(** merge: given fields take the given values, every other field keeps its own, no field
    appears or disappears; unknown names raise. *)
Theorem C54_merge_exact : forall V (d : data V) values r, NoDup (map fst d) ->
  merge V d values = Ok r ->
  map fst r = map fst d /\
  forall k, In k (map fst d) ->
    dict_get r k = match dict_get values k with Some v => Some v | None => dict_get d k end.
Proof.
  intros V d values r ND. unfold merge. destruct (forallb _ values); [|discriminate].
  intros E; inversion E; subst; clear E. split.
  - unfold replace. rewrite map_map. reflexivity.
  - clear ND. unfold replace. induction d as [|[k0 v0] d IH]; intros k Hk; [contradiction|].
    simpl. destruct (String.eqb_spec k k0).
    + subst. destruct (dict_get values k0); auto.
    + apply IH. destruct Hk as [Hk|Hk]; [simpl in Hk; congruence|auto].
Qed.

Theorem C54_merge_raises_iff_unknown : forall V (d : data V) values,
  merge V d values = Raise KeyError <-> exists k, In k (map fst values) /\ ~ In k (map fst d).
Proof.
  intros V d values. unfold merge. destruct (forallb (fun kv => known V d (fst kv)) values) eqn:K.
  - rewrite forallb_forall in K. split; [discriminate|]. intros (k & A & B). exfalso.
    apply in_map_iff in A as (kv & <- & A). apply B, known_In, K; auto.
  - split; auto. intros _.
    induction values as [|a l IH]; [discriminate|]. simpl in K. destruct (known V d (fst a)) eqn:E.
    + destruct IH as (k & A & B); auto. exists k; split; auto. right; auto.
    + exists (fst a). split; [left; auto|]. intros C. apply known_In in C. congruence.
Qed.

(** subset and merge fit together: merging back a subset changes nothing. *)
Theorem C54_merge_subset_identity : forall V (d : data V) fields r, NoDup (map fst d) ->
  subset V d fields = Ok r -> merge V d r = Ok d.
Proof.
  intros V d fields r ND S. pose proof (C54_subset_exact V d fields r S) as [A B].
  assert (Hr : forall k v, dict_get r k = Some v -> dict_get d k = Some v).
  { intros k v H. destruct (in_dec string_dec k fields) as [I|N].
    - destruct (A k I) as (w & H1 & H2). congruence.
    - rewrite (B k N) in H. discriminate. }
  unfold merge.
  assert (K : forallb (fun kv => known V d (fst kv)) r = true).
  { destruct (forallb (fun kv => known V d (fst kv)) r) eqn:E; auto. exfalso.
    assert (M : merge V d r = Raise KeyError) by (unfold merge; rewrite E; auto).
    apply C54_merge_raises_iff_unknown in M as (k & H1 & H2).
    destruct (dict_get r k) as [v|] eqn:G; [|apply dict_get_None in G; contradiction].
    apply Hr, dict_get_In in G. apply H2. apply in_map_iff. exists (k, v); auto. }
  rewrite K. f_equal. unfold replace. rewrite <- map_id. apply map_ext_in.
  intros [k v] Hin. simpl. destruct (dict_get r k) as [w|] eqn:G; auto.
  apply Hr in G. rewrite (In_dict_get d k v) in G by auto. congruence.
Qed.

(** check accepts exactly the batches in which every leaf of every batched field has the
    size of the first one. *)
Theorem C54_check_exact : forall (d : data leaves) batched,
  (forall k ls, In (k, ls) d -> ls <> []) ->
  (check d batched = Ok tt <->
   (forall k, In k batched -> In k (map fst d)) /\
   exists n, (batched <> [] -> batch_size d batched = Ok n) /\
     forall k ls, In k batched -> dict_get d k = Some ls -> forall m, In m ls -> m = n).
Proof.
  intros d batched NE. unfold check. destruct (forallb (known leaves d) batched) eqn:K.
  - rewrite forallb_known in K. destruct batched as [|k0 rest] eqn:Eb.
    + simpl. split; auto. intros _. split; auto. exists 0. split; [congruence|]. intros k ls [].
    + rewrite <- Eb in *. destruct (batch_size d batched) as [n|e] eqn:B.
      * simpl. destruct (forallb _ batched) eqn:F.
        -- rewrite forallb_forall in F. split; auto. intros _. split; auto. exists n. split; auto.
           intros k ls Hk G m Hm. specialize (F k Hk). rewrite G in F. rewrite forallb_forall in F.
           symmetry. apply Nat.eqb_eq. auto.
        -- split; [discriminate|]. intros (_ & m & H1 & H2). exfalso.
           assert (m = n) by (specialize (H1 ltac:(rewrite Eb; discriminate)); congruence). subst m.
           assert (forallb (fun k => match dict_get d k with Some ls => forallb (Nat.eqb n) ls | None => true end) batched = true); [|congruence].
           apply forallb_forall. intros k Hk. destruct (dict_get d k) as [ls|] eqn:G; auto.
           apply forallb_forall. intros m Hm. apply Nat.eqb_eq. symmetry. eapply H2; eauto.
      * exfalso. rewrite Eb in B. simpl in B.
        destruct (dict_get d k0) as [[|m ls]|] eqn:G; try discriminate.
        -- apply dict_get_In in G. eapply NE; eauto.
        -- apply dict_get_None in G. apply G, K. rewrite Eb. left; auto.
  - split; [discriminate|]. intros (H & _). apply forallb_known in H. congruence.
Qed.

(** The documented error for unknown names is KeyError; the code raises TypeError. *)
Theorem C54_check_unknown_name_refuted :
  ~ (forall d batched k, In k batched -> ~ In k (map fst d) -> check d batched = Raise KeyError).
Proof. intros H. specialize (H [] ["x"] "x" (or_introl eq_refl) (fun h => h)). discriminate H. Qed.

Theorem C54_vmap_axis : forall V (d : data V) batched k, In k (map fst d) ->
  dict_get (vmap_axis d batched) k = Some (if in_dec string_dec k batched then Some 0 else None).
Proof.
  intros V d batched k Hk. unfold vmap_axis. induction d as [|[k0 v0] d IH]; [contradiction|]. simpl.
  destruct (String.eqb_spec k k0).
  - subst. f_equal. destruct (in_dec string_dec k0 batched) as [I|N].
    + replace (existsb (String.eqb k0) batched) with true; auto. symmetry. apply existsb_exists.
      exists k0. rewrite String.eqb_refl. auto.
    + destruct (existsb (String.eqb k0) batched) eqn:E; auto. exfalso.
      apply existsb_exists in E as (x & H & E). apply String.eqb_eq in E. congruence.
  - apply IH. destruct Hk as [Hk|Hk]; [simpl in Hk; congruence|auto].
Qed.

(** Making every field batched: the fields named as batched stay as they are, every other
    field is repeated once per walker. *)
Theorem C54_fully_batched : forall V (broadcast : nat -> V -> V) n (d r : data V) batched,
  fully_batched broadcast n d batched = Ok r ->
  map fst r = map fst d /\
  forall k v, dict_get d k = Some v ->
    dict_get r k = Some (if in_dec string_dec k batched then v else broadcast n v).
Proof.
  intros V bc n d r batched H. unfold fully_batched in H. destruct (Nat.eqb n 0); [discriminate|].
  inversion H; subst; clear H. split; [rewrite map_map; reflexivity|].
  intros k v. induction d as [|[k0 v0] d IH]; simpl; [discriminate|].
  destruct (String.eqb_spec k k0); auto. intros E. inversion E; subst. f_equal.
  destruct (in_dec string_dec k0 batched) as [I|N].
  - replace (existsb (String.eqb k0) batched) with true; auto. symmetry. apply existsb_exists.
    exists k0. rewrite String.eqb_refl. auto.
  - destruct (existsb (String.eqb k0) batched) eqn:E2; auto. exfalso.
    apply existsb_exists in E2 as (x & H & E2). apply String.eqb_eq in E2. congruence.
Qed.

Example C54_example :
  subset nat [("electrons", 1); ("atoms", 2); ("charges", 3)] ["charges"; "electrons"] = Ok [("charges", 3); ("electrons", 1)] /\
  merge nat [("electrons", 1); ("atoms", 2)] [("atoms", 9)] = Ok [("electrons", 1); ("atoms", 9)] /\
  merge nat [("electrons", 1)] [("atom", 9)] = Raise KeyError /\
  check [("electrons", [4; 4]); ("atoms", [2])] ["electrons"] = Ok tt.
Proof. repeat split. Qed.

Print Assumptions C54_subset_exact.
Print Assumptions C54_merge_exact.
Print Assumptions C54_check_exact.
