(** C96: from the command line to the run. *)
From Coq Require Import String Ascii List Bool Arith ZArith Lia Sorted.
From Verif Require Import Common Common_Proofs Config_Model Config_Spec Config_Proofs Config_Props Backup_Model Cli_Model Cli_Spec.
Import ListNotations.
Open Scope string_scope.

(** ** Sequencing *)
Definition span {A} (a b : nat) (m : act A) : Prop :=
  StronglySorted le (map phase (fst m)) /\ Forall (fun e => a <= phase e <= b) (fst m).

Lemma fst_abind A B (m : act A) (k : A -> act B) :
  fst (abind m k) = match snd m with Ok a => (fst m ++ fst (k a))%list | Raise _ => fst m end.
Proof. destruct m as [es [a|e]]; simpl; auto. destruct (k a); auto. Qed.
Lemma snd_abind A B (m : act A) (k : A -> act B) :
  snd (abind m k) = match snd m with Ok a => snd (k a) | Raise e => Raise e end.
Proof. destruct m as [es [a|e]]; simpl; auto. destruct (k a); auto. Qed.

Lemma fst_bind_ok A B (m : act A) (k : A -> act B) a : snd m = Ok a -> fst (abind m k) = (fst m ++ fst (k a))%list.
Proof. intros E. rewrite fst_abind, E. reflexivity. Qed.
Arguments fst_bind_ok {A B m k a}.
Lemma abind_ok A B (a : A) (k : A -> act B) : abind (lift (Ok a)) k = k a.
Proof. simpl. destruct (k a); reflexivity. Qed.
Lemma abind_eq A B (m : act A) (k : A -> act B) :
  abind m k = match snd m with Ok a => ((fst m ++ fst (k a))%list, snd (k a)) | Raise e => (fst m, Raise e) end.
Proof. destruct m as [es [a|e]]; simpl; auto. destruct (k a); auto. Qed.
Lemma fst_lift A (r : res A) : fst (lift r) = [].
Proof. reflexivity. Qed.

Lemma sorted_app l1 l2 c : StronglySorted le l1 -> StronglySorted le l2 ->
  Forall (fun x => x <= c) l1 -> Forall (fun x => c <= x) l2 -> StronglySorted le (l1 ++ l2).
Proof.
  induction l1 as [|x l1 IH]; simpl; intros S1 S2 F1 F2; auto.
  inversion S1; subst. inversion F1; subst. constructor; auto.
  apply Forall_app; split; auto. eapply Forall_impl; [|exact F2]. simpl. intros; lia.
Qed.

Lemma span_bind A B (m : act A) (k : A -> act B) a b c : a <= b -> b <= c ->
  span a b m -> (forall x, span b c (k x)) -> span a c (abind m k).
Proof.
  intros Hab Hbc [S1 F1] K. unfold span. rewrite fst_abind. destruct (snd m) as [x|e].
  - destruct (K x) as [S2 F2]. split.
    + rewrite map_app. apply sorted_app with b; auto.
      * apply Forall_map. eapply Forall_impl; [|exact F1]. simpl; lia.
      * apply Forall_map. eapply Forall_impl; [|exact F2]. simpl; lia.
    + apply Forall_app; split; eapply Forall_impl; try eassumption; simpl; lia.
  - split; auto. eapply Forall_impl; [|exact F1]. simpl; lia.
Qed.

Lemma span_lift A (r : res A) a b : span a b (lift r).
Proof. split; simpl; constructor. Qed.
Lemma span_ret A (x : A) a b : span a b (ret x).
Proof. split; simpl; constructor. Qed.
Lemma span_weaken A (m : act A) a b a' b' : span a b m -> a' <= a -> b <= b' -> span a' b' m.
Proof. intros [S F] H1 H2. split; auto. eapply Forall_impl; [|exact F]. simpl; lia. Qed.
Lemma span_same A (m : act A) n : Forall (fun e => phase e = n) (fst m) -> span n n m.
Proof.
  intros F. split.
  - induction F as [|e l E F IH]; simpl; constructor; auto.
    apply Forall_map. eapply Forall_impl; [|exact F]. simpl. intros; lia.
  - eapply Forall_impl; [|exact F]. simpl; intros; lia.
Qed.

Lemma in_phase_span A (m : act A) a b n : span a b m -> n < a \/ b < n -> in_phase n (fst m) = [].
Proof.
  intros [_ F] N. unfold in_phase. induction F as [|e l Q F IH]; simpl; auto.
  destruct (Nat.eqb_spec (phase e) n); [lia|auto].
Qed.
Lemma span_logging h c : span 0 0 (apply_logging h c).
Proof.
  unfold apply_logging. apply span_bind with 0; auto.
  - apply span_same. simpl. auto.
  - intros _. apply span_bind with 0; auto.
    + destruct h; [apply span_ret|]. destruct (_ || _)%bool; [apply span_same; simpl; auto|apply span_lift].
    + intros _. apply span_same. simpl. auto.
Qed.
Lemma span_jax c : span 1 1 (apply_jax c).
Proof. apply span_same. unfold apply_jax. simpl. destruct (matmul_precision c); simpl; auto 10. Qed.
Lemma span_init c : span 2 3 (init_runtime c).
Proof.
  unfold init_runtime. destruct (coordinator_address c) as [a|]; [|apply span_ret].
  destruct (Z.eqb _ _); [apply span_ret|]. apply span_bind with 2; auto.
  - destruct (Z.ltb _ _); [apply span_same; simpl; auto|apply span_ret].
  - intros _. apply span_bind with 3; auto; [|intros; apply span_ret].
    apply span_weaken with 3 3; auto. apply span_same. simpl. auto.
Qed.

Section Command.
Variable V : Type.
Variables (py_str : string -> V) (py_bool : bool -> V) (py_int : Z -> V) (py_none : V).
Variable yaml_load : string -> res (cfg V).
Variable coerce : V -> cfg V -> res V.
Variable to_logging : dict V -> res logging_config.
Variable to_jax : dict V -> res jax_config.
Variable to_distributed : dict V -> res distributed_config.
Variable w : workflow V.
Variable to_yaml : dict V -> string.
Let configure := @configure_runtime V py_str py_bool py_int py_none to_logging to_jax to_distributed.
Let cmd := @command V py_str py_bool py_int py_none yaml_load coerce to_logging to_jax to_distributed w to_yaml.
Let lsch := logging_schema py_str.
Let jsch := jax_schema py_str py_bool.
Let dsch := distributed_schema py_int py_none.

Lemma span_get C (m : manager V) name (sch : schema V) (conv : dict V -> res C) a b : span a b (get_section m name sch conv).
Proof. unfold get_section. destruct (get_dataclass _ _ _ _ _) as [m' r]. apply span_lift. Qed.

Lemma span_configure h (dry : bool) m : span 0 (if dry then 1 else 3) (configure h dry m).
Proof.
  unfold configure, configure_runtime.
  assert (L : 1 <= if dry then 1 else 3) by (destruct dry; lia).
  apply span_bind with 0; [lia|lia|apply span_get|]. intros mc.
  apply span_bind with 0; [lia|lia|apply span_logging|]. intros _.
  apply span_bind with 0; [lia|lia|apply span_get|]. intros mj.
  apply span_bind with 1; [lia|lia|eapply span_weaken; [apply span_jax|lia|lia]|]. intros _.
  destruct dry; [apply span_ret|].
  apply span_bind with 1; [lia|lia|apply span_get|]. intros md.
  apply span_bind with 3; [lia|lia|eapply span_weaken; [apply span_init|lia|lia]|].
  intros i. apply span_ret.
Qed.

Lemma span_prepare f st dry i s m : span 4 4 (prepare_workflow to_yaml f st dry i s m).
Proof.
  unfold prepare_workflow. destruct (Nat.eqb i 0); [|apply span_ret].
  apply span_bind with 4; auto; [apply span_lift|]. intros _.
  destruct (prepare_ops _ _ _); [|apply span_lift]. apply span_same. simpl.
  apply Forall_map. apply Forall_forall. auto.
Qed.
Lemma span_workflow f st dry i m : span 4 5 (call_workflow coerce w to_yaml f st dry i m).
Proof.
  unfold call_workflow. apply span_bind with 4; auto; [apply span_lift|]. intros s.
  apply span_bind with 4; auto; [apply span_prepare|]. intros _.
  destruct dry; [apply span_ret|]. apply span_weaken with 5 5; auto. apply span_same. simpl. auto.
Qed.

(** Whatever the arguments, and wherever the command fails, its effects come in this
    order: logging, JAX flags, waiting, connecting, the files of the workflow, the run. *)
Theorem C96_order : forall handlers f stamp ymls dotlist dry,
  StronglySorted le (map phase (fst (cmd handlers f stamp ymls dotlist dry))).
Proof.
  intros. unfold cmd, command.
  assert (S : span 0 5 (command py_str py_bool py_int py_none yaml_load coerce to_logging to_jax to_distributed w to_yaml
                          handlers f stamp ymls dotlist dry)).
  { unfold command. apply span_bind with 0; [lia|lia|apply span_lift|]. intros cs.
    apply span_bind with 0; [lia|lia|apply span_lift|]. intros m.
    apply span_bind with 3; [lia|lia| |].
    - apply span_weaken with 0 (if dry then 1 else 3); [apply span_configure|lia|destruct dry; lia].
    - intros mi. eapply span_weaken; [apply span_workflow|lia|lia]. }
  apply S.
Qed.

(** A dry run touches nothing but the logging and the JAX flags: it never waits,
    never connects, changes no file and does not enter the run. *)
Theorem C96_dry_run : forall handlers f stamp ymls dotlist,
  let t := fst (cmd handlers f stamp ymls dotlist true) in
  (forall e, In e t -> phase e <= 1) /\ files_after f t = f.
Proof.
  intros handlers f stamp ymls dotlist.
  assert (F : Forall (fun e => phase e <= 1) (fst (cmd handlers f stamp ymls dotlist true))).
  { unfold cmd, command. rewrite fst_abind. destruct (snd (lift (load_all ymls))) as [cs|]; [|simpl; constructor].
    rewrite fst_lift, app_nil_l. rewrite fst_abind. destruct (snd (lift (make _ _ _))) as [m|]; [|simpl; constructor].
    rewrite fst_lift, app_nil_l. rewrite fst_abind.
    destruct (span_configure handlers true m) as [_ F]. unfold configure in F.
    assert (F' : Forall (fun e => phase e <= 1)
      (fst (configure_runtime py_str py_bool py_int py_none to_logging to_jax to_distributed handlers true m))).
    { eapply Forall_impl; [|exact F]. simpl; intros; lia. }
    destruct (snd (configure_runtime _ _ _ _ _ _ _ _ _ _)) as [mi|]; auto.
    apply Forall_app; split; auto. unfold call_workflow. rewrite fst_abind. rewrite ?fst_lift.
    destruct (snd (lift _)) as [s|]; [|constructor]. rewrite app_nil_l. rewrite fst_abind.
    assert (P : forall m', fst (prepare_workflow to_yaml f stamp true (snd mi) s m') = []).
    { intros m'. unfold prepare_workflow. destruct (Nat.eqb (snd mi) 0) eqn:E; auto.
      rewrite fst_abind. destruct (snd (lift _)); auto. unfold prepare_ops. simpl. rewrite E. auto. }
    rewrite P. destruct (snd (prepare_workflow _ _ _ _ _ _ _)); constructor. }
  intros t. split.
  - intros e He. eapply Forall_forall in F; eauto.
  - fold t in F. clearbody t. induction F as [|e l E F IH]; simpl; auto.
    destruct e; auto. simpl in E. lia.
Qed.

(** A configuration file whose content is not a mapping (a list, a word, nothing at
    all) is refused before anything happens, wherever it stands among the files. *)
Theorem C96_file_must_be_a_mapping : forall handlers f stamp ymls dotlist dry v,
  In (Leaf v) ymls -> cmd handlers f stamp ymls dotlist dry = ([], Raise ValueError).
Proof.
  intros handlers f stamp ymls dotlist dry v H.
  assert (L : load_all ymls = Raise ValueError).
  { induction ymls as [|y ys IH]; [contradiction|]. simpl. destruct H as [->|H]; auto.
    destruct y; simpl; auto. rewrite IH; auto. }
  unfold cmd, command. rewrite L. reflexivity.
Qed.

(** ** What configure_runtime asks for *)
Definition asks (dry : bool) : list (Config_Model.call V) :=
  [GetDataclass "logging" lsch [] None; GetDataclass "jax" jsch [] None] ++
  (if dry then [] else [GetDataclass "distributed" dsch [] None]).

Lemma get_section_ok C (m : manager V) name (sch : schema V) (conv : dict V -> res C) m' c :
  snd (get_section m name sch conv) = Ok (m', c) ->
  m' = fst (get_dataclass m name sch [] None) /\
  exists r, snd (get_dataclass m name sch [] None) = Ok r /\ conv r = Ok c.
Proof.
  unfold get_section. destruct (get_dataclass _ _ _ _ _) as [m1 [r|e]]; simpl; [|discriminate].
  destruct (conv r) eqn:E; simpl; [|discriminate]. intros H; inversion H; subst. eauto.
Qed.
Lemma fst_get_section C (m : manager V) name (sch : schema V) (conv : dict V -> res C) : fst (get_section m name sch conv) = [].
Proof. unfold get_section. destruct (get_dataclass _ _ _ _ _). reflexivity. Qed.

Lemma dataclass_result (m1 m2 : manager V) (name : string) (sch : schema V) : str_split "." name = [name] -> merged m1 = merged m2 ->
  snd (get_dataclass m1 name sch [] None) = snd (get_dataclass m2 name sch [] None).
Proof.
  intros S E. unfold get_dataclass, extract_relevant. rewrite S, E.
  destruct (serde_from_dict _ _); auto. unfold record_resolved. rewrite S. reflexivity.
Qed.
Lemma merged_dataclass (m : manager V) name (sch : schema V) : merged (fst (get_dataclass m name sch [] None)) = merged m.
Proof. apply (do_call_fields V coerce m (GetDataclass name sch [] None)). reflexivity. Qed.

(** The outcome of configure_runtime, step by step. *)
Lemma configure_ok h (dry : bool) m m1 i : snd (configure h dry m) = Ok (m1, i) ->
  m1 = run V coerce m (asks dry) /\ merged m1 = merged m /\
  snd (configure h true m) = Ok (run V coerce m (asks true), 0) /\
  (dry = true -> i = 0) /\
  (dry = false -> exists r d,
     snd (get_dataclass m "distributed" dsch [] None) = Ok r /\ to_distributed r = Ok d /\
     snd (init_runtime d) = Ok i /\
     in_phase 2 (fst (configure h false m)) = in_phase 2 (fst (init_runtime d)) /\
     in_phase 3 (fst (configure h false m)) = in_phase 3 (fst (init_runtime d))).
Proof.
  unfold configure, configure_runtime. rewrite ?snd_abind.
  destruct (snd (get_section m "logging" _ to_logging)) as [[mc lc]|] eqn:G1; [|discriminate].
  apply get_section_ok in G1 as K1. destruct K1 as [-> (r1 & R1 & C1)].
  cbv beta. rewrite ?snd_abind. simpl (snd (_, lc)). simpl (fst (_, lc)).
  destruct (snd (apply_logging h lc)) as [[]|] eqn:G2; [|discriminate].
  cbv beta. rewrite ?snd_abind.
  destruct (snd (get_section _ "jax" _ to_jax)) as [[mj jc]|] eqn:G3; [|discriminate].
  apply get_section_ok in G3 as K3. destruct K3 as [-> (r3 & R3 & C3)].
  cbv beta. rewrite ?snd_abind. simpl (snd (_, jc)). simpl (fst (_, jc)).
  destruct (snd (apply_jax jc)) as [[]|] eqn:G4; [|discriminate].
  assert (M : merged (fst (get_dataclass (fst (get_dataclass m "logging" lsch [] None)) "jax" jsch [] None)) = merged m)
    by (rewrite !merged_dataclass; reflexivity).
  destruct dry.
  - cbn [ret snd]. intros H. inversion H; subst. split; [reflexivity|]. split; [exact M|]. split; [reflexivity|].
    split; [auto|discriminate].
  - cbv beta iota. rewrite ?snd_abind.
    destruct (snd (get_section _ "distributed" _ to_distributed)) as [[md dc]|] eqn:G5; [|discriminate].
    apply get_section_ok in G5 as K5. destruct K5 as [-> (r5 & R5 & C5)].
    cbv beta. rewrite ?snd_abind. simpl (snd (_, dc)). simpl (fst (_, dc)).
    destruct (snd (init_runtime dc)) as [i'|] eqn:G6; [|discriminate].
    cbn [ret snd]. intros H. inversion H; subst. split; [reflexivity|].
    split; [rewrite merged_dataclass; exact M|]. split; [reflexivity|]. split; [discriminate|].
    intros _. exists r5, dc. split.
    { rewrite <- R5. apply dataclass_result; auto. }
    split; auto. split; auto.
    assert (E : fst (abind (get_section m "logging" (logging_schema py_str) to_logging) (fun mc =>
        abind (apply_logging h (snd mc)) (fun _ =>
        abind (get_section (fst mc) "jax" (jax_schema py_str py_bool) to_jax) (fun mj =>
        abind (apply_jax (snd mj)) (fun _ =>
        abind (get_section (fst mj) "distributed" (distributed_schema py_int py_none) to_distributed) (fun md =>
        abind (init_runtime (snd md)) (fun i => ret (fst md, i))))))))
      = (fst (apply_logging h lc) ++ fst (apply_jax jc) ++ fst (init_runtime dc))%list).
    { rewrite (fst_bind_ok G1), fst_get_section, app_nil_l. cbv beta.
      rewrite (fst_bind_ok G2). f_equal. cbn [fst snd].
      rewrite (fst_bind_ok G3), fst_get_section, app_nil_l. cbv beta. cbn [fst snd].
      rewrite (fst_bind_ok G4). f_equal.
      rewrite (fst_bind_ok G5), fst_get_section, app_nil_l. cbv beta. cbn [fst snd].
      rewrite (fst_bind_ok G6). cbn [fst ret]. apply app_nil_r. }
    unfold in_phase. rewrite E, !filter_app.
    assert (Z : forall n l, n <> 0 -> Forall (fun e => 0 <= phase e <= 0) l -> filter (fun e => Nat.eqb (phase e) n) l = []).
    { intros n l N F. induction F as [|e l Q F IH]; simpl; auto.
      destruct (Nat.eqb_spec (phase e) n); [lia|auto]. }
    assert (Z1 : forall n l, 1 < n -> Forall (fun e => 1 <= phase e <= 1) l -> filter (fun e => Nat.eqb (phase e) n) l = []).
    { intros n l N F. induction F as [|e l Q F IH]; simpl; auto.
      destruct (Nat.eqb_spec (phase e) n); [lia|auto]. }
    pose proof (proj2 (span_logging h lc)). pose proof (proj2 (span_jax jc)).
    rewrite !(Z 2), !(Z 3), !(Z1 2), !(Z1 3) by auto. auto.
Qed.

(** A command whose configuration files are mappings and whose overrides parse. *)
Lemma command_start h f st ymls dotlist dry :
  (exists configs m m1 i,
     load_all ymls = Ok configs /\ make yaml_load configs dotlist = Ok m /\
     snd (configure h dry m) = Ok (m1, i) /\
     cmd h f st ymls dotlist dry =
       ((fst (configure h dry m) ++ fst (call_workflow coerce w to_yaml f st dry i m1))%list,
        snd (call_workflow coerce w to_yaml f st dry i m1)))
  \/ (~ In Start (fst (cmd h f st ymls dotlist dry)) /\ in_phase 4 (fst (cmd h f st ymls dotlist dry)) = []).
Proof.
  unfold cmd, command. destruct (load_all ymls) as [configs|] eqn:L; [|right; cbn; tauto].
  rewrite abind_ok. destruct (make yaml_load configs dotlist) as [m|] eqn:M; [|right; cbn; tauto].
  rewrite abind_ok. fold configure. destruct (snd (configure h dry m)) as [[m1 i]|e] eqn:C.
  - left. exists configs, m, m1, i. repeat split; auto. rewrite abind_eq, C. reflexivity.
  - right. rewrite abind_eq, C. cbn [fst]. split; [intros H|apply (in_phase_span _ _ _ _ 4 (span_configure h dry m)); destruct dry; lia].
    destruct (span_configure h dry m) as [_ F]. eapply Forall_forall in F; [|exact H].
    simpl in F. destruct dry; lia.
Qed.
Lemma no_start_early h dry m : ~ In Start (fst (configure h dry m)).
Proof.
  intros H. destruct (span_configure h dry m) as [_ F]. eapply Forall_forall in F; [|exact H].
  simpl in F. destruct dry; lia.
Qed.
Lemma workflow_late f st dry i m n : n < 4 -> in_phase n (fst (call_workflow coerce w to_yaml f st dry i m)) = [].
Proof.
  intros N. destruct (span_workflow f st dry i m) as [_ F]. unfold in_phase.
  induction F as [|e l Q F IH]; simpl; auto. destruct (Nat.eqb_spec (phase e) n); [lia|auto].
Qed.

(** A command that enters the run has connected to the coordinator exactly once,
    with the configured arguments, if a coordinator is configured and the number of
    processes is not 1, and not at all otherwise; it waited before connecting exactly
    if its process number is positive, for the configured time. *)
Theorem C96_connects_as_configured : forall handlers f stamp ymls dotlist,
  let t := fst (cmd handlers f stamp ymls dotlist false) in
  In Start t ->
  exists configs m r d,
    load_all ymls = Ok configs /\ make yaml_load configs dotlist = Ok m /\
    snd (get_dataclass m "distributed" dsch [] None) = Ok r /\ to_distributed r = Ok d /\
    in_phase 3 t = match coordinator_address d with
                   | Some a => if Z.eq_dec (num_processes d) 1 then []
                               else [Connect a (num_processes d) (process_id d) (initialization_timeout d)]
                   | None => []
                   end /\
    in_phase 2 t = if list_eq_dec Nat.eq_dec (map phase (in_phase 3 t)) [] then []
                   else if Z_lt_dec 0 (process_id d) then [Sleep (wait_seconds d)] else [].
Proof.
  intros h f st ymls dotlist t Hs.
  destruct (command_start h f st ymls dotlist false) as [(configs & m & m1 & i & L & M & C & E)|[N _]]; [|contradiction].
  destruct (configure_ok _ _ _ _ _ C) as (_ & _ & _ & _ & K). destruct (K eq_refl) as (r & d & R & D & I & P2 & P3).
  exists configs, m, r, d. repeat split; auto.
  - unfold t. rewrite E. cbn [fst]. unfold in_phase. rewrite filter_app.
    fold (in_phase 3 (fst (configure h false m))). rewrite P3. fold (in_phase 3 (fst (call_workflow coerce w to_yaml f st false i m1))).
    rewrite workflow_late by lia. rewrite app_nil_r. unfold init_runtime.
    destruct (coordinator_address d); auto. destruct (Z.eqb_spec (num_processes d) 1), (Z.eq_dec (num_processes d) 1); try congruence; auto.
    destruct (Z.ltb _ _); reflexivity.
  - assert (P : forall n, n < 4 -> in_phase n t = in_phase n (fst (configure h false m))).
    { intros n Hn. unfold t. rewrite E. cbn [fst]. unfold in_phase. rewrite filter_app.
      fold (in_phase n (fst (call_workflow coerce w to_yaml f st false i m1))). rewrite workflow_late by lia. apply app_nil_r. }
    rewrite !P, P2, P3 by lia. unfold init_runtime.
    destruct (coordinator_address d); auto. destruct (Z.eqb_spec (num_processes d) 1); auto.
    destruct (Z.ltb_spec 0 (process_id d)), (Z_lt_dec 0 (process_id d)); try lia; reflexivity.
Qed.

Lemma workflow_calls (m : manager V) cs1 cs2 :
  fold_left (do_call coerce) cs2 (run V coerce m cs1) = run V coerce m (cs1 ++ cs2)%list.
Proof. unfold run. rewrite fold_left_app. reflexivity. Qed.

Lemma asked_asks dry cs : asked (asks dry ++ cs) = (["logging"; "jax"] ++ (if dry then [] else ["distributed"]) ++ asked cs)%list.
Proof. destruct dry; reflexivity. Qed.

(** [asked_by_nobody] is what finalize looks for. *)
Lemma nobody_unread (d : dict V) names : asked_by_nobody d names <-> exists p, unread V d names p.
Proof.
  unfold asked_by_nobody, unread. split.
  - intros (p & v & A & Q). exists p. split; eauto.
  - intros (p & [v A] & Q). exists p, v. auto.
Qed.

Lemma finalize_verdict configs dotlist m cs :
  (forall s c, yaml_load s = Ok c -> wf c) -> make yaml_load configs dotlist = Ok m ->
  Forall (fun s => wf (Dict s)) configs ->
  (finalize (run V coerce m cs) true = Raise SystemExit <->
   asked_by_nobody (user_config m) (asked cs) \/ asked_by_nobody (cli_config m) (asked cs)).
Proof.
  intros Y M W. rewrite (C17_stops_iff_unread V yaml_load coerce Y configs dotlist m cs M W), !nobody_unread.
  split; [intros (p & [U|U]); eauto|intros [(p & U)|(p & U)]; eauto].
Qed.
Lemma finalize_raises (m : manager V) b e : finalize m b = Raise e -> e = SystemExit.
Proof. unfold finalize. destruct (find_unused _ _), (find_unused _ (cli_config m)); try destruct b; intros H; inversion H; auto. Qed.

Lemma cmd_configured h f st ymls dotlist dry configs m m1 i s :
  load_all ymls = Ok configs -> make yaml_load configs dotlist = Ok m ->
  snd (configure h dry m) = Ok (m1, i) -> w_settings w (merged m) = Ok s ->
  let p := prepare_workflow to_yaml f st dry i s (run V coerce m (asks dry ++ w_calls w (merged m))%list) in
  cmd h f st ymls dotlist dry =
    match snd p with
    | Ok _ => ((fst (configure h dry m) ++ fst p ++ (if dry then [] else [Start]))%list, Ok tt)
    | Raise e => ((fst (configure h dry m) ++ fst p)%list, Raise e)
    end.
Proof.
  intros L M C S p. unfold cmd, command. rewrite L, abind_ok, M, abind_ok. fold configure.
  rewrite abind_eq, C. cbn [fst snd]. destruct (configure_ok _ _ _ _ _ C) as (-> & Em & _).
  unfold call_workflow. rewrite Em, S, abind_ok. rewrite workflow_calls. fold p.
  rewrite abind_eq. destruct (snd p); [|reflexivity]. destruct dry; reflexivity.
Qed.

(** On the process that writes the files (the only one, or the one with number 0),
    unless the workflow was told to ignore extra keys: the command stops with
    SystemExit exactly if the user supplied a value, in a file or as an override, that
    neither the start-up nor the workflow's constructor asked for; then it has written
    nothing and started nothing. *)
Theorem C96_first_process_checks : forall handlers f stamp ymls dotlist dry configs m m1 s,
  (forall s c, yaml_load s = Ok c -> wf c) -> Forall (fun s => wf (Dict s)) configs ->
  load_all ymls = Ok configs -> make yaml_load configs dotlist = Ok m ->
  snd (configure handlers dry m) = Ok (m1, 0) ->
  w_settings w (merged m) = Ok s -> ignore_extra s = false ->
  let t := cmd handlers f stamp ymls dotlist dry in
  let names := (["logging"; "jax"] ++ (if dry then [] else ["distributed"]) ++ asked (w_calls w (merged m)))%list in
  (snd t = Raise SystemExit <->
     asked_by_nobody (user_config m) names \/ asked_by_nobody (cli_config m) names) /\
  (snd t = Raise SystemExit -> files_after f (fst t) = f /\ ~ In Start (fst t)).
Proof.
  intros h f st ymls dotlist dry configs m m1 s Y W L M C S I t names.
  pose proof (cmd_configured h f st ymls dotlist dry configs m m1 0 s L M C S) as E. cbv zeta in E. fold t in E. clearbody t.
  pose proof (finalize_verdict configs dotlist m (asks dry ++ w_calls w (merged m))%list Y M W) as V0.
  rewrite asked_asks in V0. fold names in V0.
  set (mf := run V coerce m (asks dry ++ w_calls w (merged m))%list) in *.
  unfold prepare_workflow in E. cbn [Nat.eqb] in E. rewrite I in E. cbn [negb] in E.
  destruct (finalize mf true) as [rr|e] eqn:F.
  - rewrite abind_ok in E.
    assert (N : snd t <> Raise SystemExit).
    { rewrite E. destruct (prepare_ops _ _ _); cbn; discriminate. }
    split; [|contradiction]. split; [contradiction|]. intros H. apply V0 in H. discriminate.
  - cbn in E. rewrite app_nil_r in E. pose proof (finalize_raises _ _ _ F) as ->. rewrite E. cbn [fst snd].
    split; [tauto|]. intros _. split.
    + destruct (span_configure h dry m) as [_ Q]. clear - Q. induction Q as [|x l Q1 Q IH]; simpl; auto.
      destruct x; auto. simpl in Q1. destruct dry; lia.
    + apply no_start_early.
Qed.

(** Every other process goes straight into the run and writes nothing, whatever
    unread values its configuration has: if process 0 stops, the others wait for it. *)
Theorem C96_other_processes_do_not_check : forall handlers f stamp ymls dotlist configs m m1 i s,
  load_all ymls = Ok configs -> make yaml_load configs dotlist = Ok m ->
  snd (configure handlers false m) = Ok (m1, S i) -> w_settings w (merged m) = Ok s ->
  let t := cmd handlers f stamp ymls dotlist false in
  snd t = Ok tt /\ In Start (fst t) /\ in_phase 4 (fst t) = [].
Proof.
  intros h f st ymls dotlist configs m m1 i s L M C S t.
  pose proof (cmd_configured h f st ymls dotlist false configs m m1 _ s L M C S) as E. cbv zeta in E. fold t in E. clearbody t.
  unfold prepare_workflow in E. cbn in E. rewrite E. cbn [fst snd]. split; auto. split.
  - apply in_or_app. right. left. reflexivity.
  - unfold in_phase. rewrite filter_app. cbn. rewrite app_nil_r.
    exact (in_phase_span _ _ _ _ 4 (span_configure h false m) ltac:(lia)).
Qed.

Lemma dotted_distributed q : dotted q = "distributed" -> q = ["distributed"].
Proof.
  destruct q as [|a [|b q]]; [discriminate| |].
  - unfold dotted. simpl. congruence.
  - rewrite dotted_cons by discriminate. intros H.
    assert (str_has "." "distributed" = true) by (rewrite <- H, !has_app; simpl; rewrite orb_true_r; auto).
    discriminate.
Qed.

Lemma nobody_split (d : dict V) names :
  (forall n q, In n names -> n <> dotted ("distributed" :: q)) ->
  (asked_by_nobody d names <->
   writes_in d "distributed" \/ asked_by_nobody d ("distributed" :: names)).
Proof.
  intros N. split.
  - intros (p & v & A & Q).
    destruct p as [|k p].
    { right. exists [], v. split; auto. intros q Hq [r E]. destruct q; [congruence|discriminate]. }
    destruct (string_dec k "distributed") as [->|Hk]; [left; exists p, v; auto|].
    right. exists (k :: p), v. split; auto. intros q Hq P [H|H]; [|eapply Q; eauto].
    symmetry in H. apply dotted_distributed in H. subst q. destruct P as [r E]. inversion E; congruence.
  - intros [(p & v & A)|(p & v & A & Q)].
    + exists ("distributed" :: p), v. split; auto. intros q Hq [r E] H.
      destruct q as [|k q]; [congruence|]. inversion E; subst. eapply N; eauto.
    + exists p, v. split; auto. intros q Hq P H. eapply Q; eauto. right; auto.
Qed.

(** What a dry run says about a configuration that the real run accepts and starts:
    it refuses it exactly if the user wrote anything in the section [distributed].
    (No workflow asks for that section itself.) *)
Theorem C96_dry_run_verdict : forall handlers f stamp ymls dotlist configs m m1 s,
  (forall s c, yaml_load s = Ok c -> wf c) -> Forall (fun s => wf (Dict s)) configs ->
  load_all ymls = Ok configs -> make yaml_load configs dotlist = Ok m ->
  snd (configure handlers false m) = Ok (m1, 0) ->
  w_settings w (merged m) = Ok s -> ignore_extra s = false ->
  (forall n q, In n (asked (w_calls w (merged m))) -> n <> dotted ("distributed" :: q)) ->
  In Start (fst (cmd handlers f stamp ymls dotlist false)) ->
  (snd (cmd handlers f stamp ymls dotlist true) = Raise SystemExit <->
   writes_in (user_config m) "distributed" \/ writes_in (cli_config m) "distributed").
Proof.
  intros h f st ymls dotlist configs m m1 s Y W L M C S I N Hs.
  destruct (C96_first_process_checks h f st ymls dotlist false configs m m1 s Y W L M C S I) as [R1 R2].
  destruct (configure_ok _ _ _ _ _ C) as (_ & _ & Cd & _).
  destruct (C96_first_process_checks h f st ymls dotlist true configs m _ s Y W L M Cd S I) as [D1 _].
  assert (NR : snd (cmd h f st ymls dotlist false) <> Raise SystemExit) by (intros H; apply R2 in H; tauto).
  rewrite D1. clear D1 Cd. simpl app in *.
  set (names := asked (w_calls w (merged m))) in *.
  assert (P : forall d : dict V, asked_by_nobody d ("logging" :: "jax" :: "distributed" :: names) <->
                        asked_by_nobody d ("distributed" :: "logging" :: "jax" :: names)).
  { intros d. unfold asked_by_nobody. split; intros (p & v & A & Q); exists p, v; (split; [exact A|]);
      intros q Hq Pq H; apply (Q q Hq Pq); simpl in *; tauto. }
  assert (G : forall d : dict V, asked_by_nobody d ("logging" :: "jax" :: names) <->
     writes_in d "distributed" \/ asked_by_nobody d ("logging" :: "jax" :: "distributed" :: names)).
  { intros d. rewrite P. apply nobody_split. intros n q [<-|[<-|H]]; [| |apply N; auto].
    - destruct q; [discriminate|]. rewrite dotted_cons by discriminate. discriminate.
    - destruct q; [discriminate|]. rewrite dotted_cons by discriminate. discriminate. }
  rewrite !G. rewrite R1 in NR. tauto.
Qed.

(** Only the first process writes: a process that connected with a positive number
    touches no file, whatever happens afterwards ... *)
Theorem C96_only_first_process_writes : forall handlers f stamp ymls dotlist dry a n i tm,
  let t := fst (cmd handlers f stamp ymls dotlist dry) in
  In (Connect a n i tm) t -> (0 < i)%Z -> in_phase 4 t = [] /\ files_after f t = f.
Proof.
  intros h f st ymls dotlist dry a n i tm t Hc Hi.
  assert (P : in_phase 4 t = []).
  { destruct (command_start h f st ymls dotlist dry) as [(configs & m & m1 & i' & L & M & C & E)|[_ N]]; [|exact N].
    assert (Pc : in_phase 4 (fst (configure h dry m)) = [])
      by (apply (in_phase_span _ _ _ _ 4 (span_configure h dry m)); destruct dry; lia).
    assert (K : In (Connect a n i tm) (in_phase 3 (fst (configure h dry m)))).
    { apply filter_In. split; [|reflexivity]. unfold t in Hc. rewrite E in Hc. cbn [fst] in Hc.
      apply in_app_or in Hc as [Hc|Hc]; auto. exfalso.
      destruct (span_workflow f st dry i' m1) as [_ F]. eapply Forall_forall in F; [|exact Hc]. simpl in F. lia. }
    destruct dry.
    { rewrite (in_phase_span _ _ _ _ 3 (span_configure h true m)) in K by lia. destruct K. }
    destruct (configure_ok _ _ _ _ _ C) as (_ & _ & _ & _ & Q). destruct (Q eq_refl) as (r & d & _ & _ & I & _ & P3).
    rewrite P3 in K. unfold init_runtime in I, K. destruct (coordinator_address d); [|destruct K].
    destruct (Z.eqb _ _); [destruct K|].
    assert (Ei : i = process_id d /\ i' = Z.to_nat (process_id d)).
    { destruct (Z.ltb 0 _); cbn in I, K; inversion I; destruct K as [K|[]]; inversion K; auto. }
    destruct Ei as [-> ->]. unfold t. rewrite E. cbn [fst]. unfold in_phase in *. rewrite filter_app, Pc.
    unfold call_workflow. rewrite abind_eq. destruct (snd (lift _)); [|reflexivity]. cbn [lift fst app].
    rewrite abind_eq. unfold prepare_workflow. destruct (Nat.eqb_spec (Z.to_nat (process_id d)) 0); [lia|]. reflexivity. }
  split; [exact P|]. clear - P. clearbody t. unfold in_phase in P. induction t as [|e t IH]; simpl in *; auto.
  destruct e; simpl in *; auto. discriminate.
Qed.

Lemma configure_sections h (dry : bool) m m1 i : snd (configure h dry m) = Ok (m1, i) ->
  exists rl l rj j rest,
    snd (get_dataclass m "logging" lsch [] None) = Ok rl /\ to_logging rl = Ok l /\
    snd (get_dataclass m "jax" jsch [] None) = Ok rj /\ to_jax rj = Ok j /\
    snd (apply_logging h l) = Ok tt /\
    fst (configure h dry m) = (fst (apply_logging h l) ++ fst (apply_jax j) ++ rest)%list /\
    Forall (fun e => 2 <= phase e <= 3) rest.
Proof.
  unfold configure, configure_runtime. rewrite abind_eq.
  destruct (snd (get_section m "logging" _ to_logging)) as [[mc lc]|] eqn:G1; [|discriminate].
  apply get_section_ok in G1 as K1. destruct K1 as [-> (r1 & R1 & C1)].
  rewrite fst_get_section, app_nil_l. cbn [fst snd]. rewrite abind_eq.
  destruct (snd (apply_logging h lc)) as [[]|] eqn:G2; [|discriminate]. cbn [fst snd]. rewrite abind_eq.
  destruct (snd (get_section _ "jax" _ to_jax)) as [[mj jc]|] eqn:G3; [|discriminate].
  apply get_section_ok in G3 as K3. destruct K3 as [-> (r3 & R3 & C3)].
  rewrite fst_get_section, app_nil_l. cbn [fst snd]. rewrite abind_eq.
  destruct (snd (apply_jax jc)) as [[]|] eqn:G4; [|discriminate]. cbn [fst snd].
  intros H. exists r1, lc, r3, jc. eexists. split; [exact R1|]. split; [exact C1|].
  split. { rewrite <- R3. apply dataclass_result; auto. rewrite merged_dataclass. reflexivity. }
  split; [exact C3|]. split; [exact G2|]. split; [reflexivity|].
  destruct dry; [constructor|]. rewrite fst_abind, fst_get_section.
  destruct (snd (get_section _ "distributed" _ to_distributed)) as [[md dc]|]; [|constructor].
  rewrite app_nil_l, fst_abind. cbn [fst snd].
  destruct (snd (init_runtime dc)); rewrite ?app_nil_r; apply (proj2 (span_init dc)).
Qed.

(** The settings in force when the run starts are the configured ones: every JAX flag
    is set to its field (the matmul precision only if there is one), the root logger
    has the configured level, and a handler was added, with the configured level and
    stream, exactly if there was none.  The same for a dry run. *)
Theorem C96_settings_applied : forall handlers f stamp ymls dotlist dry,
  let t := fst (cmd handlers f stamp ymls dotlist dry) in
  (In Start t \/ snd (cmd handlers f stamp ymls dotlist dry) = Ok tt) ->
  exists configs m rl l rj j,
    load_all ymls = Ok configs /\ make yaml_load configs dotlist = Ok m /\
    snd (get_dataclass m "logging" lsch [] None) = Ok rl /\ to_logging rl = Ok l /\
    snd (get_dataclass m "jax" jsch [] None) = Ok rj /\ to_jax rj = Ok j /\
    (forall name v, In (JaxFlag name v) t <->
       (name = "jax_enable_x64" /\ v = FlagBool (enable_x64 j)) \/
       (name = "jax_debug_infs" /\ v = FlagBool (debug_infs j)) \/
       (name = "jax_debug_nans" /\ v = FlagBool (debug_nans j)) \/
       (name = "jax_disable_jit" /\ v = FlagBool (disable_jit j)) \/
       (name = "jax_default_matmul_precision" /\ exists p, matmul_precision j = Some p /\ v = FlagStr p)) /\
    (forall lv, In (SetLevel lv) t <-> lv = level l) /\
    (forall lv sm, In (AddHandler lv sm) t <-> handlers = false /\ lv = level l /\ sm = stream l) /\
    (handlers = false -> stream l = "stdout" \/ stream l = "stderr").
Proof.
  intros h f st ymls dotlist dry t Hs.
  assert (K : exists configs m m1 i,
     load_all ymls = Ok configs /\ make yaml_load configs dotlist = Ok m /\
     snd (configure h dry m) = Ok (m1, i) /\
     cmd h f st ymls dotlist dry =
       ((fst (configure h dry m) ++ fst (call_workflow coerce w to_yaml f st dry i m1))%list,
        snd (call_workflow coerce w to_yaml f st dry i m1))).
  { destruct Hs as [Hs|Hs].
    - destruct (command_start h f st ymls dotlist dry) as [K|[N _]]; [exact K|contradiction].
    - clear t. revert Hs. unfold cmd, command. rewrite abind_eq. cbn [lift fst snd].
      destruct (load_all ymls) as [configs|] eqn:L; [|discriminate]. rewrite abind_eq. cbn [lift fst snd].
      destruct (make yaml_load configs dotlist) as [m|] eqn:M; [|discriminate]. rewrite abind_eq. fold configure.
      destruct (snd (configure h dry m)) as [[m1 i]|] eqn:C; [|discriminate]. intros _.
      exists configs, m, m1, i. repeat split; auto. }
  destruct K as (configs & m & m1 & i & L & M & C & E).
  destruct (configure_sections _ _ _ _ _ C) as (rl & l & rj & j & rest & A1 & A2 & A3 & A4 & A5 & A6 & A7).
  exists configs, m, rl, l, rj, j.
  destruct (span_workflow f st dry i m1) as [_ F].
  assert (T : t = (fst (apply_logging h l) ++ fst (apply_jax j) ++ rest ++ fst (call_workflow coerce w to_yaml f st dry i m1))%list)
    by (unfold t; rewrite E; cbn [fst]; rewrite A6, <- !app_assoc; reflexivity).
  assert (Late : forall e, phase e <= 1 -> (In e t <-> In e (fst (apply_logging h l)) \/ In e (fst (apply_jax j)))).
  { intros e He. rewrite T, !in_app_iff. split; [|tauto].
    intros [H|[H|[H|H]]]; auto; exfalso.
    - eapply Forall_forall in A7; [|exact H]. simpl in A7. lia.
    - eapply Forall_forall in F; [|exact H]. simpl in F. lia. }
  clear T E. clearbody t.
  do 6 (split; [assumption|]).
  assert (Lg : fst (apply_logging h l) = ClearJaxHandlers :: (if h then [] else [AddHandler (level l) (stream l)]) ++ [SetLevel (level l)]
               /\ (h = false -> stream l = "stdout" \/ stream l = "stderr")).
  { unfold apply_logging in *. destruct h; [split; [reflexivity|discriminate]|].
    destruct (String.eqb_spec (stream l) "stdout"); [split; [reflexivity|auto]|].
    destruct (String.eqb_spec (stream l) "stderr"); [split; [reflexivity|auto]|]. discriminate. }
  destruct Lg as [Lg1 Lg2].
  split; [|split; [|split; [|exact Lg2]]].
  - intros name v. rewrite Late by (simpl; lia). rewrite Lg1. split.
    + intros [H|H].
      * destruct h; simpl in H; repeat destruct H as [H|H]; try discriminate; try contradiction.
      * unfold apply_jax in H. destruct (matmul_precision j) as [p|] eqn:P; simpl in H;
          repeat destruct H as [H|H]; try contradiction; inversion H; subst; eauto 12.
    + intros H. right. unfold apply_jax. cbn [emit fst].
      destruct H as [[-> ->]|[[-> ->]|[[-> ->]|[[-> ->]|[-> (p & -> & ->)]]]]]; simpl; auto 10.
  - intros lv. rewrite Late by (simpl; lia). rewrite Lg1. split.
    + intros [H|H].
      * destruct h; simpl in H; repeat destruct H as [H|H]; try discriminate; try contradiction; inversion H; auto.
      * unfold apply_jax in H. destruct (matmul_precision j); simpl in H;
          repeat destruct H as [H|H]; try contradiction; discriminate.
    + intros ->. left. destruct h; simpl; auto.
  - intros lv sm. rewrite Late by (simpl; lia). rewrite Lg1. split.
    + intros [H|H].
      * destruct h; simpl in H; repeat destruct H as [H|H]; try discriminate; try contradiction; inversion H; auto.
      * unfold apply_jax in H. destruct (matmul_precision j); simpl in H;
          repeat destruct H as [H|H]; try contradiction; discriminate.
    + intros (-> & -> & ->). left. simpl. auto.
Qed.
End Command.
