(** C25: composition of estimators. *)
From Coq Require Import String List Bool Arith Lia.
From Verif Require Import Common Common_Proofs Pipeline_Model.
Import ListNotations.
Open Scope string_scope.
Open Scope list_scope.
Local Notation length := List.length.

(** *** Specification *)
(** The value of a key according to the last of some dictionaries that has it. *)
Fixpoint latest {A} (dicts : list (list (string * A))) (k : string) : option A :=
  match dicts with
  | [] => None
  | d :: rest => match latest rest k with Some v => Some v | None => dict_get d k end
  end.
(** The random key of the i-th estimator. *)
Fixpoint chain (k : key) (i : nat) : key := match i with O => k | S i' => chain (Split k false) i' end.
Definition nth_key (k : key) (i : nat) : key := Split (chain k i) true.

(** Dictionaries have each key once. *)
Definition is_dict {A} (d : list (string * A)) : Prop := NoDup (map fst d).

Lemma latest_app {A} (a b : list (list (string * A))) k :
  latest (a ++ b) k = match latest b k with Some v => Some v | None => latest a k end.
Proof. induction a as [|d a IH]; simpl; [destruct (latest b k); auto|]. rewrite IH. destruct (latest b k); auto. Qed.

Section Props.
Variables (W St B F S : Type).
Notation est := (estimator W St B F S).
Definition lawful (e : est) : Prop :=
  (forall prev s k, is_dict (fst (e_eval e prev s k))) /\ (forall parts, is_dict (e_reduce e parts)) /\
  (forall d s, is_dict (e_final e d s)) /\ (forall s n, is_dict (e_final_state e s n)).

(** What one evaluation did: for the i-th estimator, its result [out i] (statistics of the
    walkers and new state) came from its own state, its own random key, and the walker
    statistics of the estimators before it. *)
Definition called (es : list (string * est)) (state : list (string * S)) (rng : key)
  (outs : list (list (string * W) * S)) : Prop :=
  length outs = length es /\
  forall i name e, nth_error es i = Some (name, e) ->
    exists prev s, dict_get state name = Some s /\
      nth_error outs i = Some (e_eval e prev s (nth_key rng i)) /\
      forall k, dict_get prev k = latest (map fst (firstn i outs)) k.
(** The reduced statistics, estimator by estimator. *)
Definition reduced (es : list (string * est)) (outs : list (list (string * W) * S)) : list (list (string * St)) :=
  map (fun p => e_reduce (snd (fst p)) (fst (snd p))) (combine es outs).

Lemma eval_loop_spec es : forall l l', NoDup (map fst es) -> Forall (fun p => lawful (snd p)) es ->
  eval_loop es l = Ok l' ->
  exists outs, length outs = length es /\
    (forall i name e, nth_error es i = Some (name, e) ->
      exists prev s, dict_get (l_state l) name = Some s /\
        nth_error outs i = Some (e_eval e prev s (nth_key (l_rng l) i)) /\
        forall k, dict_get prev k = match latest (map fst (firstn i outs)) k with Some v => Some v | None => dict_get (l_walker l) k end) /\
    (forall k, dict_get (l_step l') k = match latest (reduced es outs) k with Some v => Some v | None => dict_get (l_step l) k end) /\
    (forall i name e, nth_error es i = Some (name, e) ->
      exists out, nth_error outs i = Some out /\ dict_get (l_state l') name = Some (snd out) /\
        dict_get (l_keys l') name = Some (map fst (e_reduce e (fst out)))) /\
    (forall name, ~ In name (map fst es) -> dict_get (l_state l') name = dict_get (l_state l) name /\
                                            dict_get (l_keys l') name = dict_get (l_keys l) name).
Proof.
  induction es as [|[nm e] es IH]; intros l l' ND LW H; simpl in H.
  - inversion H; subst. exists []. split; auto. split; [intros [|i]; discriminate|]. split; auto. split; [intros [|i]; discriminate|]. auto.
  - destruct (dict_get (l_state l) nm) as [s|] eqn:E; [|discriminate].
    destruct (e_eval e (l_walker l) s (Split (l_rng l) true)) as [parts s'] eqn:EV.
    inversion ND as [|? ? NI ND']; subst. inversion LW as [|? ? L1 LW']; subst. cbn [snd] in L1.
    destruct L1 as (L1 & L2 & _).
    assert (DP : is_dict parts) by (specialize (L1 (l_walker l) s (Split (l_rng l) true)); rewrite EV in L1; auto).
    apply IH in H; auto. clear IH. destruct H as (outs & A & Bc & C & D & G). cbn [l_walker l_step l_state l_keys l_rng] in *.
    exists ((parts, s') :: outs). split; [simpl; auto|]. split; [|split; [|split]].
    + intros [|i] name e0 Hi; simpl in Hi.
      * inversion Hi; subst. exists (l_walker l), s. split; auto. split; [simpl; f_equal; auto|]. intros k. reflexivity.
      * destruct (Bc i name e0 Hi) as (prev & s0 & P1 & P2 & P3). exists prev, s0. split.
        -- assert (N : name <> nm). { intros ->. apply NI. apply nth_error_In in Hi. apply in_map_iff. exists (nm, e0). auto. }
           rewrite dict_get_set_other in P1 by congruence. auto.
        -- split; [exact P2|]. intros k. rewrite P3. cbn [firstn map latest fst].
           destruct (latest (map fst (firstn i outs)) k); auto. rewrite dict_get_update by auto. destruct (dict_get parts k); auto.
    + intros k. rewrite C. unfold reduced. cbn [combine map latest fst snd].
      destruct (latest _ k); auto. rewrite dict_get_update by apply L2. destruct (dict_get (e_reduce e parts) k); auto.
    + intros [|i] name e0 Hi; simpl in Hi.
      * inversion Hi; subst. exists (parts, s'). split; auto. destruct (G name NI) as [G1 G2].
        rewrite G1, G2, !dict_get_set_same. auto.
      * destruct (D i name e0 Hi) as (out & D1 & D2). exists out. auto.
    + intros name Hn. simpl in Hn. destruct (G name) as [G1 G2]; [tauto|]. rewrite G1, G2.
      rewrite !dict_get_set_other by tauto. auto.
Qed.

(** ** C25.  Evaluation: every estimator sees what those before it computed (the latest
    value of each key), gets its own state and a random key of its own; the step statistics
    are everybody's reduced statistics; nothing else in the state changes. *)
Theorem C25_each_sees_all_before : forall (es : list (string * est)) state rng step state' p' p,
  estimators p = es -> NoDup (map fst es) -> Forall (fun q => lawful (snd q)) es ->
  evaluate p state rng = Ok (step, state', p') ->
  exists outs, called es state rng outs /\
    (forall k, dict_get step k = latest (reduced es outs) k) /\
    (forall i name e, nth_error es i = Some (name, e) ->
       exists out, nth_error outs i = Some out /\ dict_get state' name = Some (snd out)) /\
    (forall name, ~ In name (map fst es) -> dict_get state' name = dict_get state name) /\
    estimators p' = es /\
    (forall i name e out, nth_error es i = Some (name, e) -> nth_error outs i = Some out ->
       dict_get (reduce_keys p') name = Some (map fst (e_reduce e (fst out)))).
Proof.
  intros es state rng step state' p' p <- ND LW H. unfold evaluate in H.
  destruct (eval_loop (estimators p) _) as [l|] eqn:E; [|discriminate]. inversion H; subst. clear H.
  apply eval_loop_spec in E; auto. destruct E as (outs & A & Bc & C & D & G). cbn [l_walker l_step l_state l_keys l_rng] in *.
  exists outs. split; [|split; [|split; [|split; [|split]]]].
  - split; auto. intros i name e Hi. destruct (Bc i name e Hi) as (prev & s & P1 & P2 & P3). exists prev, s.
    split; auto. split; auto. intros k. rewrite P3. simpl. destruct (latest _ k); auto.
  - intros k. rewrite C. simpl. destruct (latest _ k); auto.
  - intros i name e Hi. destruct (D i name e Hi) as (out & D1 & D2 & _). eauto.
  - intros name Hn. apply (G name Hn).
  - reflexivity.
  - intros i name e out Hi Ho. cbn [reduce_keys]. destruct (D i name e Hi) as (out' & D1 & _ & D3). congruence.
Qed.

(** It fails only for an estimator that has no entry in the state. *)
Theorem C25_evaluate_total : forall (p : pipeline W St B F S) state rng,
  (forall name, In name (map fst (estimators p)) -> dict_get state name <> None) ->
  exists r, evaluate p state rng = Ok r.
Proof.
  intros p state rng H. unfold evaluate.
  assert (G : forall es l, (forall name, In name (map fst es) -> dict_get (l_state l) name <> None) -> exists l', eval_loop (W:=W) (St:=St) (B:=B) (F:=F) (S:=S) es l = Ok l').
  { clear. induction es as [|[nm e] es IH]; intros l H; simpl; [eauto|].
    destruct (dict_get (l_state l) nm) as [s|] eqn:E; [|exfalso; apply (H nm); simpl; auto].
    destruct (e_eval _ _ _ _) as [parts s']. apply IH. cbn [l_state]. intros name Hn.
    destruct (String.eqb_spec nm name) as [->|N]; [rewrite dict_get_set_same; discriminate|].
    rewrite dict_get_set_other by congruence. apply H. simpl. auto. }
  destruct (G (estimators p) {| l_walker := []; l_step := []; l_state := state; l_keys := reduce_keys p; l_rng := rng |} H) as [l ->].
  eauto.
Qed.

(** Different estimators get different random keys. *)
Fixpoint depth (k : key) : nat := match k with Root _ => 0 | Split k' _ => Datatypes.S (depth k') end.
Lemma chain_depth i : forall k, depth (chain k i) = (depth k + i)%nat.
Proof. induction i; intros k; simpl; [lia|]. rewrite IHi. simpl. lia. Qed.
Theorem C25_distinct_keys : forall rng i j, nth_key rng i = nth_key rng j -> i = j.
Proof.
  intros rng i j H. unfold nth_key in H. inversion H as [E]. apply (f_equal depth) in E. rewrite !chain_depth in E. lia.
Qed.

(** *** Finalising *)
Lemma own_part_get (keys : list string) (batched : list (string * B)) k :
  (In k keys -> dict_get (own_part keys batched) k = dict_get batched k) /\
  (~ In k keys -> dict_get (own_part keys batched) k = None).
Proof.
  unfold own_part. induction keys as [|k0 keys [IH1 IH2]]; [split; [intros []|auto]|]. cbn [flat_map].
  destruct (dict_get batched k0) as [v|] eqn:E; cbn [app dict_get].
  - destruct (String.eqb_spec k k0) as [->|N]; [split; [auto|intros H; exfalso; apply H; left; auto]|].
    split; intros H; [destruct H; [congruence|auto]|]. apply IH2. intros X. apply H. right; auto.
  - split; intros H.
    + destruct (in_dec string_dec k keys) as [I|I]; [auto|]. destruct H as [<-|H]; [|contradiction].
      rewrite IH2, E; auto.
    + apply IH2. intros X. apply H. right; auto.
Qed.

(** What finalising did: the i-th estimator was given exactly the batched values of its own
    reduced keys, and its own state. *)
Definition finalized (es : list (string * est)) (own : list (list string)) (batched : list (string * B))
  (state : list (string * S)) (finals : list (list (string * F))) : Prop :=
  length finals = length es /\
  forall i name e ks, nth_error es i = Some (name, e) -> nth_error own i = Some ks ->
    exists arg s, dict_get state name = Some s /\ nth_error finals i = Some (e_final e arg s) /\
      (forall k, In k ks -> dict_get arg k = dict_get batched k) /\ (forall k, ~ In k ks -> dict_get arg k = None).

Lemma final_loop_spec (batched : list (string * B)) state keys : forall es own acc r, Forall (fun q => lawful (snd q)) es ->
  length own = length es ->
  (forall i name e ks, nth_error es i = Some (name, e) -> nth_error own i = Some ks -> dict_get keys name = Some ks) ->
  final_loop es keys batched state acc = Ok r ->
  exists finals, finalized es own batched state finals /\
    forall k, dict_get r k = match latest finals k with Some v => Some v | None => dict_get acc k end.
Proof.
  induction es as [|[nm e] es IH]; intros own acc r LW L K H; simpl in H.
  - inversion H; subst. exists []. split; auto. split; auto. intros [|i]; discriminate.
  - destruct own as [|ks0 own]; [discriminate|]. inversion LW as [|? ? L1 LW']; subst. cbn [snd] in L1.
    destruct (dict_get keys nm) as [ks|] eqn:E1; [|discriminate].
    destruct (dict_get state nm) as [s|] eqn:E2; [|discriminate].
    assert (ks = ks0) by (specialize (K 0%nat nm e ks0 eq_refl eq_refl); congruence). subst ks0.
    apply (IH own) in H; auto.
    + destruct H as (finals & [FL Fn] & G). exists (e_final e (own_part ks batched) s :: finals). split.
      * split; [simpl; auto|]. intros [|i] name e0 ks0 Hi Ho; simpl in Hi, Ho.
        -- inversion Hi; inversion Ho; subst. exists (own_part ks0 batched), s. split; auto. split; auto.
           split; intros k Hk; apply own_part_get; auto.
        -- apply (Fn i name e0 ks0); auto.
      * intros k. rewrite G. simpl. destruct (latest finals k); auto.
        rewrite dict_get_update by apply L1. destruct (dict_get (e_final e (own_part ks batched) s) k); auto.
    + intros i name e0 ks0 Hi Ho. apply (K (Datatypes.S i) name e0 ks0); auto.
Qed.

(** The reduced keys recorded after an evaluation. *)
Definition own_keys (es : list (string * est)) (outs : list (list (string * W) * S)) : list (list string) :=
  map (map fst) (reduced es outs).

Lemma combine_nth_error {X Y} (a : list X) (b : list Y) i x y : nth_error a i = Some x -> nth_error b i = Some y ->
  nth_error (combine a b) i = Some (x, y).
Proof. revert b i. induction a as [|x0 a IH]; intros [|y0 b] [|i]; simpl; intros; try discriminate; [congruence|eauto]. Qed.
Lemma nth_error_some_len {X Y} (a : list X) (b : list Y) i x : length a = length b -> nth_error a i = Some x -> exists y, nth_error b i = Some y.
Proof.
  intros L H. destruct (nth_error b i) eqn:E; eauto. apply nth_error_None in E.
  assert (nth_error a i <> None) by congruence. apply nth_error_Some in H0. lia.
Qed.

(** After an evaluation, finalising gives every estimator exactly its own statistics, and
    the result is everybody's final statistics. *)
Theorem C25_finalised_by_owner : forall (es : list (string * est)) p state rng step state' p' batched state2 r,
  estimators p = es -> NoDup (map fst es) -> Forall (fun q => lawful (snd q)) es ->
  evaluate p state rng = Ok (step, state', p') ->
  finalize_stats p' batched state2 = Ok r ->
  exists outs finals, called es state rng outs /\
    (forall k, dict_get step k = latest (reduced es outs) k) /\
    finalized es (own_keys es outs) batched state2 finals /\ (forall k, dict_get r k = latest finals k).
Proof.
  intros es p state rng step state' p' batched state2 r E ND LW EV FS.
  destruct (C25_each_sees_all_before es state rng step state' p' p E ND LW EV) as (outs & Ca & Cs & _ & _ & Ep & Ck).
  unfold finalize_stats in FS. assert (FS' : final_loop (estimators p') (reduce_keys p') batched state2 [] = Ok r) by (destruct (reduce_keys p'); [discriminate|auto]).
  clear FS. rename FS' into FS. rewrite Ep in FS. apply (final_loop_spec batched state2 (reduce_keys p') es (own_keys es outs)) in FS; auto.
  - destruct FS as (finals & A & Bk). exists outs, finals. split; auto. split; auto. split; auto.
    intros k. rewrite Bk. simpl. destruct (latest finals k); auto.
  - unfold own_keys, reduced. rewrite !map_length, combine_length. destruct Ca. lia.
  - intros i name e ks Hi Ho. destruct Ca as [CL _]. destruct (nth_error_some_len es outs i _ (eq_sym CL) Hi) as [out Hout].
    rewrite (Ck i name e out Hi Hout). unfold own_keys, reduced in Ho. rewrite map_map in Ho.
    rewrite (map_nth_error _ _ _ (combine_nth_error _ _ _ _ _ Hi Hout)) in Ho. cbn in Ho. congruence.
Qed.

(** A key that only the i-th estimator reduces: the step statistic is the i-th
    estimator's value. *)
Theorem C25_unshared_key : forall (es : list (string * est)) outs i e out k v,
  length outs = length es -> nth_error es i = Some e -> nth_error outs i = Some out ->
  dict_get (e_reduce (snd e) (fst out)) k = Some v ->
  (forall j ks, j <> i -> nth_error (own_keys es outs) j = Some ks -> ~ In k ks) ->
  latest (reduced es outs) k = Some v.
Proof.
  intros es outs i e out k v L He Ho Hv U.
  assert (G : forall (ds : list (list (string * St))) i d, nth_error ds i = Some d -> dict_get d k = Some v ->
    (forall j d', j <> i -> nth_error ds j = Some d' -> dict_get d' k = None) -> latest ds k = Some v).
  { clear. induction ds as [|d0 ds IH]; intros i d Hd Hv H; [destruct i; discriminate|]. simpl.
    destruct i as [|i]; simpl in Hd.
    - inversion Hd; subst d0. replace (latest ds k) with (@None St); auto. symmetry.
      assert (H' : forall j d', nth_error ds j = Some d' -> dict_get d' k = None) by (intros j d' Hj; apply (H (Datatypes.S j) d'); auto).
      clear - H'. induction ds as [|d0 ds IH]; auto. simpl. rewrite IH; [apply (H' 0%nat); auto|]. intros j d' Hj. apply (H' (Datatypes.S j)); auto.
    - rewrite (IH i d); auto. intros j d' N Hj. apply (H (Datatypes.S j)); auto. }
  apply (G _ i (e_reduce (snd e) (fst out))); auto.
  - unfold reduced. rewrite (map_nth_error _ _ _ (combine_nth_error _ _ _ _ _ He Ho)). auto.
  - intros j d' N Hj. apply dict_get_None. apply (U j); auto. unfold own_keys. rewrite (map_nth_error _ _ _ Hj). auto.
Qed.

(** Finalising before evaluating raises; after an evaluation of a non-empty pipeline it
    works, with the state the evaluation returned. *)
Theorem C25_finalize_before_evaluate : forall (es : list (string * est)) batched state,
  finalize_stats (mk_pipeline es) batched state = Raise RuntimeError.
Proof. reflexivity. Qed.
Theorem C25_finalize_after_evaluate : forall (es : list (string * est)) p state rng step state' p' batched,
  estimators p = es -> es <> [] -> NoDup (map fst es) -> Forall (fun q => lawful (snd q)) es ->
  evaluate p state rng = Ok (step, state', p') ->
  exists r, finalize_stats p' batched state' = Ok r.
Proof.
  intros es p state rng step state' p' batched E NE ND LW EV.
  destruct (C25_each_sees_all_before es state rng step state' p' p E ND LW EV) as (outs & [CL _] & _ & Cst & _ & Ep & Ck).
  assert (K : forall i name e, nth_error es i = Some (name, e) -> (exists ks, dict_get (reduce_keys p') name = Some ks) /\ (exists s, dict_get state' name = Some s)).
  { intros i name e Hi. destruct (Cst i name e Hi) as (out & O1 & O2). split; [|eauto].
    rewrite (Ck i name e out Hi O1). eauto. }
  unfold finalize_stats. destruct (reduce_keys p') as [|kk ks0] eqn:RK.
  { destruct es as [|[n0 e0] es]; [congruence|]. destruct (K 0%nat n0 e0 eq_refl) as [[ks X] _]. discriminate. }
  rewrite <- RK in *. rewrite Ep. clear - K. generalize (@nil (string * F)) as acc.
  induction es as [|[nm e] es IH]; intros acc; simpl; [eauto|].
  destruct (K 0%nat nm e eq_refl) as [[ks ->] [s ->]]. apply IH. intros i name e0 Hi. apply (K (Datatypes.S i) name e0). auto.
Qed.

(** The digest adds what the estimators draw from their states; with no recorded
    statistics, it is only that. *)
Theorem C25_digest : forall (p : pipeline W St B F S) batched state n r,
  Forall (fun q => lawful (snd q)) (estimators p) ->
  digest p batched state n = Ok r ->
  exists base sts, (batched = [] /\ base = [] \/ batched <> [] /\ finalize_stats p batched state = Ok base) /\
    length sts = length (estimators p) /\
    (forall i name e, nth_error (estimators p) i = Some (name, e) ->
       exists s, dict_get state name = Some s /\ nth_error sts i = Some (e_final_state e s n)) /\
    (forall k, dict_get r k = match latest sts k with Some v => Some v | None => dict_get base k end).
Proof.
  intros p batched state n r LW H. unfold digest in H.
  assert (G : forall es acc r, Forall (fun q => lawful (snd q)) es -> state_loop (W:=W) (St:=St) (B:=B) (F:=F) (S:=S) es state n acc = Ok r ->
    exists sts, length sts = length es /\
      (forall i name e, nth_error es i = Some (name, e) ->
       exists s, dict_get state name = Some s /\ nth_error sts i = Some (e_final_state e s n)) /\
      (forall k, dict_get r k = match latest sts k with Some v => Some v | None => dict_get acc k end)).
  { clear. induction es as [|[nm e] es IH]; intros acc r LW H; simpl in H.
    - inversion H; subst. exists []. split; auto. split; [intros [|i]; discriminate|auto].
    - destruct (dict_get state nm) as [s|] eqn:E; [|discriminate]. inversion LW as [|? ? L1 LW']; subst.
      apply IH in H; auto. destruct H as (sts & A & Bn & C). exists (e_final_state e s n :: sts). split; [simpl; auto|]. split.
      + intros [|i] name e0 Hi; simpl in Hi; [inversion Hi; subst; exists s; auto|]. apply (Bn i name e0 Hi).
      + intros k. rewrite C. simpl. destruct (latest sts k); auto. rewrite dict_get_update by apply L1.
        destruct (dict_get (e_final_state e s n) k); auto. }
  destruct batched as [|b0 batched].
  - apply G in H; auto. destruct H as (sts & A & Bn & C). exists [], sts. split; [left; auto|]. auto.
  - destruct (finalize_stats p (b0 :: batched) state) as [base|] eqn:E; [|discriminate].
    apply G in H; auto. destruct H as (sts & A & Bn & C). exists base, sts. split; [right; split; [discriminate|auto]|]. auto.
Qed.
End Props.
Arguments called {W St B F S}. Arguments lawful {W St B F S}.

(** *** Concrete estimators: statistics are numbers. *)
Definition E (out red : string) (f : list (string * nat) -> nat) : estimator nat nat nat nat nat :=
  {| e_eval := fun prev s _ => ([(out, f prev)], Datatypes.S s);
     e_reduce := fun parts => map (fun kv => (red, snd kv)) parts;
     e_final := fun d s => map (fun kv => (fst kv, 10 * snd kv)) d;
     e_final_state := fun s n => [] |}.
Definition get0 (k : string) (d : list (string * nat)) : nat := match dict_get d k with Some v => v | None => 0 end.
Definition p2 : pipeline nat nat nat nat nat :=
  mk_pipeline [("kinetic", E "a" "a" (fun _ => 3)); ("total", E "b" "b" (fun prev => get0 "a" prev + 4))].
Example C25_example :
  exists p', evaluate p2 [("kinetic", 0); ("total", 5)] (Root 1) = Ok ([("a", 3); ("b", 7)], [("kinetic", 1); ("total", 6)], p') /\
    finalize_stats p' [("a", 3); ("b", 7); ("x", 9)] [("kinetic", 1); ("total", 6)] = Ok [("a", 30); ("b", 70)].
Proof. eexists. split; reflexivity. Qed.

(** Two estimators reducing to the same key: the first one is given the second one's value. *)
Theorem C25_shared_key_refuted : exists (e1 e2 : estimator nat nat nat nat nat) p' step st,
  evaluate (mk_pipeline [("one", e1); ("two", e2)]) [("one", 0); ("two", 0)] (Root 0) = Ok (step, st, p') /\
  e_reduce e1 (fst (e_eval e1 [] 0 (Root 0))) = [("x", 1)] /\
  own_part ["x"] step = [("x", 2)] /\ dict_get (reduce_keys p') "one" = Some ["x"].
Proof.
  exists (E "a" "x" (fun _ => 1)), (E "b" "x" (fun _ => 2)). do 3 eexists. split; [reflexivity|]. auto.
Qed.

(** An estimator added after the evaluation makes finalising fail with a key error. *)
Theorem C25_added_after_evaluate : exists p' step st,
  evaluate p2 [("kinetic", 0); ("total", 5)] (Root 1) = Ok (step, st, p') /\
  forall batched, finalize_stats (set_item p' "late" (E "c" "c" (fun _ => 0))) batched (("late", 0) :: st) = Raise KeyError.
Proof. do 3 eexists. split; [reflexivity|]. intros. reflexivity. Qed.

Print Assumptions C25_each_sees_all_before.
Print Assumptions C25_finalised_by_owner.
Print Assumptions C25_digest.
