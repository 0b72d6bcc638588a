(** C24: a sampling plan updates exactly its fields. *)
From Coq Require Import String List Bool Arith ZArith QArith Lia.
From Verif Require Import Common Common_Proofs Data_Model Data_Props Sampler_Model.
Import ListNotations.
Open Scope list_scope.
Open Scope nat_scope.

Section P.
  Variables (V L Key St : Type).
  Variable split2 : Key -> Key * Key.
  Variable log_prob : data V -> L.
  Notation sampler_step := (sampler_step V L Key St).
  Notation plan := (plan V L Key St).
  Notation plan_loop := (plan_loop V L Key St split2 log_prob).
  Notation plan_step := (plan_step V L Key St split2 log_prob).

  (** *** Specification *)
  (** A sampler returns values for exactly the fields it was given. *)
  Definition well_behaved (smp : sampler_step) : Prop :=
    forall f part st k x, In x (map fst (fst (fst (smp f part st k)))) <-> In x (map fst part).
  Definition declared (p : plan) : list string := flat_map fst p.

  (** A proposal for some fields is scored with the full data it would lead to. *)
  Definition score (d : data V) (x : list (string * V)) : res L := bind (merge V d x) (fun m => Ok (log_prob m)).

  (** One sweep: every sampler in turn reads its fields from the *current* data, scores
      its proposals against the current values of all other fields, and its result
      replaces its fields. *)
  Inductive sweep : plan -> data V -> list (string * St) -> Key -> data V -> list (string * St) -> Prop :=
  | sweep_nil d st k : sweep [] d st k d st
  | sweep_cons keys smp p d st k part s part' sts s' d1 d2 st2 :
      subset V d keys = Ok part ->
      dict_get st (state_key keys) = Some s ->
      smp (score d) part s (snd (split2 k)) = (part', sts, s') ->
      map fst d1 = map fst d ->
      (forall x, dict_get d1 x = if in_dec string_dec x keys then dict_get part' x else dict_get d x) ->
      sweep p d1 (dict_set st (state_key keys) s') (fst (split2 k)) d2 st2 ->
      sweep ((keys, smp) :: p) d st k d2 st2.

  (** *** Proofs *)
  Lemma subset_agree (a b : data V) keys : map fst a = map fst b ->
    (forall x, In x keys -> dict_get a x = dict_get b x) -> subset V a keys = subset V b keys.
  Proof.
    intros F H. unfold subset.
    assert (K : forallb (known V a) keys = forallb (known V b) keys).
    { apply eq_true_iff_eq. rewrite !forallb_known, F. reflexivity. }
    rewrite K. destruct (forallb (known V b) keys); auto. f_equal.
    clear K. revert H. generalize (@nil (string * V)). induction keys as [|k keys IH]; intros acc H; auto.
    simpl. rewrite (H k) by (left; auto). apply IH. intros x Hx. apply H. right; auto.
  Qed.

  Lemma subset_keys (d : data V) keys part : subset V d keys = Ok part -> forall x, In x (map fst part) <-> In x keys.
  Proof.
    intros H x. destruct (C54_subset_exact V d keys part H) as [A B]. split; intros I.
    - destruct (in_dec string_dec x keys); auto. exfalso. apply B in n. apply dict_get_None in n. contradiction.
    - destruct (A x I) as (v & _ & E). destruct (in_dec string_dec x (map fst part)); auto.
      apply dict_get_None in n. congruence.
  Qed.

  Lemma merge_get (d : data V) part d1 : NoDup (map fst d) -> merge V d part = Ok d1 ->
    map fst d1 = map fst d /\ forall x, dict_get d1 x = match dict_get part x with Some v => Some v | None => dict_get d x end.
  Proof.
    intros ND H. destruct (C54_merge_exact V d part d1 ND H) as [A B]. split; auto. intros x.
    destruct (in_dec string_dec x (map fst d)) as [I|N]; [apply B; auto|].
    assert (N' : ~ In x (map fst d1)) by congruence. apply dict_get_None in N'. rewrite N'.
    destruct (dict_get part x) as [v|] eqn:E.
    - exfalso. assert (R : merge V d part = Raise KeyError).
      { apply C54_merge_raises_iff_unknown. exists x. split; auto. apply dict_get_In in E. apply in_map_iff. exists (x, v); auto. }
      congruence.
    - symmetry. apply dict_get_None. auto.
  Qed.

  Lemma loop_is_sweep orig : forall p d st k acc d' sts' st',
    NoDup (map fst orig) -> map fst d = map fst orig ->
    NoDup (declared p) -> (forall x, In x (declared p) -> dict_get d x = dict_get orig x) ->
    Forall (fun ks => well_behaved (snd ks)) p ->
    plan_loop orig p d st k acc = Ok (d', sts', st') -> sweep p d st k d' st'.
  Proof.
    induction p as [|[keys smp] p IH]; intros d st k acc d' sts' st' ND F NDp Ag WB H.
    - simpl in H. inversion H; subst. constructor.
    - cbn [Sampler_Model.plan_loop] in H. destruct (split2 k) as [k' sub] eqn:Ks.
      assert (SE : subset V orig keys = subset V d keys).
      { apply subset_agree; auto. intros x Hx. symmetry. apply Ag. simpl. apply in_or_app; auto. }
      rewrite SE in H. destruct (subset V d keys) as [part|] eqn:S; simpl in H; [|discriminate].
      destruct (dict_get st (state_key keys)) as [s|] eqn:G; [|discriminate].
      destruct (smp _ part s sub) as [[part' sts] s'] eqn:R.
      destruct (merge V d part') as [d1|] eqn:M; simpl in H; [|discriminate].
      inversion WB as [|? ? W WB']; subst. simpl in W.
      destruct (merge_get d part' d1) as [F1 G1]; [congruence|auto|].
      assert (PK : forall x, In x (map fst part') <-> In x keys).
      { intros x. rewrite <- (subset_keys d keys part S x).
        specialize (W (fun x => bind (merge V d x) (fun m => Ok (log_prob m))) part s sub x). rewrite R in W. exact W. }
      assert (E1 : forall x, dict_get d1 x = if in_dec string_dec x keys then dict_get part' x else dict_get d x).
      { intros x. rewrite G1. destruct (in_dec string_dec x keys) as [I|N].
        - apply PK in I. destruct (dict_get part' x) eqn:E; auto. apply dict_get_None in E. contradiction.
        - assert (N' : ~ In x (map fst part')) by (rewrite PK; auto). apply dict_get_None in N'. rewrite N'. auto. }
      simpl in NDp.
      assert (ND2 : NoDup (declared p) /\ forall x, In x keys -> ~ In x (declared p)).
      { clear - NDp. induction keys as [|a keys IH]; simpl in *; [auto|]. inversion NDp; subst.
        destruct (IH H2) as [A B]. split; auto. intros x [<-|Hx]; auto. intros X. apply H1. apply in_or_app; auto. }
      destruct ND2 as [ND2 Dis].
      econstructor; eauto.
      + rewrite Ks. exact R.
      + rewrite Ks. cbn [fst]. eapply IH; eauto; [congruence|].
        intros x Hx. rewrite E1. destruct (in_dec string_dec x keys) as [I|N].
        * exfalso. eapply Dis; eauto.
        * apply Ag. simpl. apply in_or_app; auto.
  Qed.

  (** *** C24.  If the samplers' fields are disjoint, a plan step is one sweep. *)
  Theorem C24_plan_step_is_sweep : forall p d st k d' sts' st',
    NoDup (map fst d) -> NoDup (declared p) -> Forall (fun ks => well_behaved (snd ks)) p ->
    plan_step p d st k = Ok (d', sts', st') -> sweep p d st k d' st'.
  Proof. intros. eapply loop_is_sweep; eauto. Qed.

  (** A sweep leaves undeclared fields (and the set of fields) alone ... *)
  Theorem C24_undeclared_unchanged : forall p d st k d' st', sweep p d st k d' st' ->
    map fst d' = map fst d /\ forall x, ~ In x (declared p) -> dict_get d' x = dict_get d x.
  Proof.
    induction 1 as [|keys smp p d st k part s part' sts s' d1 d2 st2 S G R F E SW [IH1 IH2]]; [auto|].
    split; [congruence|]. intros x Hx. simpl in Hx. rewrite IH2 by (intros X; apply Hx; apply in_or_app; auto).
    rewrite E. destruct (in_dec string_dec x keys); auto. exfalso; apply Hx; apply in_or_app; auto.
  Qed.

  (** ... and keeps every sampler's result, which was computed from the data as left by
      the samplers before it. *)
  Theorem C24_every_update_kept : forall p1 keys smp p2 d st k d' st',
    NoDup (declared (p1 ++ (keys, smp) :: p2)) ->
    sweep (p1 ++ (keys, smp) :: p2) d st k d' st' ->
    exists d1 st1 k1 part s part' sts s',
      sweep p1 d st k d1 st1 /\ subset V d1 keys = Ok part /\ dict_get st1 (state_key keys) = Some s /\
      smp (score d1) part s (snd (split2 k1)) = (part', sts, s') /\
      (forall x, In x keys -> dict_get d' x = dict_get part' x) /\
      ((forall ks, In ks p2 -> state_key (fst ks) <> state_key keys) -> dict_get st' (state_key keys) = Some s').
  Proof.
    induction p1 as [|[keys0 smp0] p1 IH]; intros keys smp p2 d st k d' st' ND SW.
    - simpl in SW. inversion SW as [|? ? ? ? ? ? part s part' sts s' d1 ? ? S G R F E SW2]; subst.
      exists d, st, k, part, s, part', sts, s'. split; [constructor|]. repeat (split; [assumption|]).
      destruct (C24_undeclared_unchanged _ _ _ _ _ _ SW2) as [_ U]. split.
      + intros x Hx. rewrite U.
        * rewrite E. destruct (in_dec string_dec x keys); [auto|contradiction].
        * simpl in ND. intros X. clear - ND Hx X. induction keys as [|a keys IHk]; [contradiction|].
          simpl in ND. inversion ND; subst. destruct Hx as [<-|Hx]; [|auto]. apply H1. apply in_or_app; auto.
      + intros Dis. clear - SW2 Dis.
        assert (GG : dict_get (dict_set st (state_key keys) s') (state_key keys) = Some s') by apply dict_get_set_same.
        revert GG. generalize dependent (dict_set st (state_key keys) s'). intros s0 SW2 GG.
        induction SW2 as [|keys2 smp2 p d0 st0 k0 part2 s2 part2' sts2 s2' d3 d4 st4 S G R F E SW IH]; auto.
        apply IH; [intros; apply Dis; right; auto|].
        rewrite dict_get_set_other; auto. apply (Dis (keys2, smp2)). left; auto.
    - simpl in SW. inversion SW as [|? ? ? ? ? ? part s part' sts s' d1 ? ? S G R F E SW2]; subst.
      assert (ND' : NoDup (declared (p1 ++ (keys, smp) :: p2))).
      { clear - ND. simpl in ND. induction keys0; simpl in ND; [exact ND|inversion ND; auto]. }
      destruct (IH _ _ _ _ _ _ _ _ ND' SW2)
        as (d2 & st2 & k2 & pa & s2 & pa' & sts2 & s2' & A & B).
      exists d2, st2, k2, pa, s2, pa', sts2, s2'. split; [econstructor; eauto|auto].
  Qed.

  (** Declaring a sampler: the named fields get that sampler, all other declarations and
      their order stay, and no field tuple is declared twice. *)
  Lemma strs_eqb_eq a b : strs_eqb a b = true <-> a = b.
  Proof.
    revert b. induction a as [|x a IH]; destruct b as [|y b]; simpl; try (split; congruence).
    rewrite andb_true_iff, String.eqb_eq, IH. split; [intros [-> ->]; auto|intros H; inversion H; auto].
  Qed.
  Theorem C24_declaration : forall (p : plan) keys smp, NoDup (map fst p) ->
    let p' := will_sample V L Key St p keys smp in
    NoDup (map fst p') /\
    (forall s, In (keys, s) p' <-> s = smp) /\
    (forall ks s, ks <> keys -> (In (ks, s) p' <-> In (ks, s) p)) /\
    (In keys (map fst p) -> map fst p' = map fst p) /\
    (~ In keys (map fst p) -> p' = p ++ [(keys, smp)]).
  Proof.
    intros p keys smp. cbv zeta. induction p as [|[k s0] p IH]; intros ND.
    - simpl. split; [constructor; [intros []|constructor]|]. split; [|split; [|split]].
      + intros s. split; [intros [E|[]]; congruence|intros ->; auto].
      + intros ks s N. split; [intros [E|[]]; congruence|intros []].
      + intros [].
      + reflexivity.
    - inversion ND as [|? ? NI ND']; subst. destruct (IH ND') as (A & B & C & D & E). simpl.
      destruct (strs_eqb k keys) eqn:Q.
      + apply strs_eqb_eq in Q. subst k. split; [simpl; constructor; auto|]. split; [|split; [|split]].
        * intros s. split.
          -- intros [H|H]; [congruence|]. exfalso. apply NI. apply in_map_iff. exists (keys, s). auto.
          -- intros ->. left. auto.
        * intros ks s N. split; (intros [H|H]; [congruence|right; auto]).
        * intros _. reflexivity.
        * intros H. exfalso. apply H. left. auto.
      + assert (N : k <> keys) by (intros H; apply strs_eqb_eq in H; congruence).
        split; [|split; [|split; [|split]]].
        * simpl. constructor; auto. intros H. apply in_map_iff in H as ([k1 s1] & H1 & H2). simpl in H1. subst k1.
          apply C in H2; auto. apply NI. apply in_map_iff. exists (k, s1). auto.
        * intros s. split; [intros [H|H]; [congruence|]; apply B; auto|intros ->; right; apply B; auto].
        * intros ks s N1. split; (intros [H0|H0]; [left; auto|right; apply C; auto]).
        * intros [H|H]; [simpl in H; congruence|]. simpl. f_equal. auto.
        * intros H. simpl. f_equal. apply E. intros X. apply H. right. auto.
  Qed.
End P.

(** The default sampler, as part of a plan, returns exactly the fields it was given. *)

(** Overlapping fields: both samplers start from the original data, so the result of the
    first is lost (and the second scores its proposals against it). *)
Theorem C24_overlapping_fields_refuted :
  ~ (forall (p : plan nat nat nat unit) d st k d' sts' st',
       NoDup (map fst d) -> Forall (fun ks => well_behaved nat nat nat unit (snd ks)) p ->
       plan_step nat nat nat unit (fun k => (k, k)) (fun _ => 0) p d st k = Ok (d', sts', st') ->
       sweep nat nat nat unit (fun k => (k, k)) (fun _ => 0) p d st k d' st').
Proof.
  intros H.
  set (inc := (fun f (part : list (string * nat)) (st : unit) (k : nat) =>
                 (map (fun kv => (fst kv, S (snd kv))) part, @nil (string * Q), st)) : sampler_step nat nat nat unit).
  assert (WB : well_behaved nat nat nat unit inc).
  { intros f part st k x. simpl. rewrite map_map. reflexivity. }
  specialize (H [(["a"], inc); (["a"; "b"], inc)]%string [("a", 0); ("b", 0)]%string
     [("a", tt); ("a,b", tt)]%string 0 [("a", 1); ("b", 1)]%string [] [("a", tt); ("a,b", tt)]%string).
  assert (WBs : Forall (fun ks => well_behaved nat nat nat unit (snd ks)) [(["a"], inc); (["a"; "b"], inc)]%string)
    by (constructor; [exact WB|constructor; [exact WB|constructor]]).
  assert (SW := H ltac:(repeat constructor; simpl; intuition discriminate) WBs eq_refl). clear H.
  inversion SW as [|? ? ? ? ? ? part s part' sts s' d1 ? ? S G R F E SW2]; subst.
  vm_compute in S. inversion S; subst part; clear S. simpl in R. inversion R; subst part'; clear R.
  inversion SW2 as [|? ? ? ? ? ? part2 s2 part2' sts2 s2' d2 ? ? S2 G2 R2 F2 E2 SW3]; subst.
  inversion SW3; subst.
  specialize (E2 "a"%string).
  pose proof (C54_subset_exact _ _ _ _ S2) as [A _].
  destruct (A "a"%string ltac:(left; auto)) as (v & V1 & V2).
  rewrite E in V1. vm_compute in V1. inversion V1; subst v.
  simpl in R2. inversion R2; subst part2'. clear - E2 V2.
  assert (M : forall l k v, dict_get l k = Some v -> dict_get (map (fun kv : string * nat => (fst kv, S (snd kv))) l) k = Some (S v)).
  { clear. induction l as [|[a b] l IH]; simpl; intros k v H; [discriminate|]. destruct (k =? a)%string; [congruence|auto]. }
  apply M in V2. destruct (in_dec string_dec "a" ["a"; "b"]%string) as [|N]; [|apply N; left; reflexivity].
  rewrite V2 in E2. discriminate E2.
Qed.

(** Statistics of equal name overwrite each other: with two Metropolis samplers only the
    acceptance rate of the last one is reported. *)
Theorem C24_stats_of_all_samplers_refuted :
  ~ (forall (p : plan nat nat nat unit) d st k d' sts' st',
       plan_step nat nat nat unit (fun k => (k, k)) (fun _ => 0) p d st k = Ok (d', sts', st') ->
       forall ks f part s key part' sts s', In ks p -> snd ks f part s key = (part', sts, s') ->
         forall name v, In (name, v) sts -> In (name, v) sts').
Proof.
  intros H.
  set (smp := (fun q => (fun f part st k => (part, [("pmove"%string, q)], st)) : sampler_step nat nat nat unit)).
  specialize (H [(["a"], smp 0%Q); (["b"], smp 1%Q)]%string [("a", 0); ("b", 0)]%string
     [("a", tt); ("b", tt)]%string 0 _ _ _ eq_refl (["a"]%string, smp 0%Q) (fun _ => Ok 0) [] tt 0 _ _ _
     ltac:(left; auto) eq_refl "pmove"%string 0%Q ltac:(left; auto)).
  simpl in H. destruct H as [H|[]]. inversion H.
Qed.

(** The hypotheses are met by a plan with two disjoint samplers. *)
Example C24_example :
  let inc := fun n => (fun f (part : list (string * nat)) (st : unit) (k : nat) =>
                 (map (fun kv => (fst kv, n + snd kv)) part, [("pmove"%string, 1%Q)], st)) : sampler_step nat nat nat unit in
  let p := [(["e"], inc 1); (["x"; "y"], inc 10)]%string in
  NoDup (declared nat nat nat unit p) /\ Forall (fun ks => well_behaved nat nat nat unit (snd ks)) p /\
  plan_step nat nat nat unit (fun k => (k, k)) (fun _ => 0) p [("e", 0); ("fix", 7); ("x", 1); ("y", 2)]%string
    [("e", tt); ("x,y", tt)]%string 0
  = Ok ([("e", 1); ("fix", 7); ("x", 11); ("y", 12)]%string, [("pmove"%string, 1%Q)], [("e", tt); ("x,y", tt)]%string).
Proof.
  split; [repeat constructor; simpl; intuition discriminate|]. split; [|reflexivity].
  repeat constructor; simpl; try rewrite map_map; auto.
Qed.

Print Assumptions C24_plan_step_is_sweep.
Print Assumptions C24_every_update_kept.
Print Assumptions C24_overlapping_fields_refuted.
