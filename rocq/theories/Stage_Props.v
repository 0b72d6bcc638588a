(** Theorems about runs of a stage and the files it keeps (C06-C10, C12-C14). *)
From Coq Require Import String Ascii List Bool Arith ZArith NArith QArith Lia.
From Verif Require Import Common Common_Proofs Ckpt_Model Ckpt_Spec Ckpt_Proofs
  Stage_Model Stage_Spec Stage_Proofs StageFiles_Proofs.
Import ListNotations.
Open Scope string_scope.

(** A small concrete stage used in the examples: the state is one integer, a step
    appends the digit drawn from its random key. *)
Definition mk (z : Z) : tree := Node [("w", Leaf (mkLeaf KJnp (mkPayload [1%nat] [z])))].
Definition unmk (t : tree) : Z :=
  match t with Node [(_, Leaf l)] => match entries (ldata l) with [z] => z | _ => 0%Z end | _ => 0%Z end.
Definition st_of (z : Z) : stats := [("loss", [mkNum (Some (inject_Z z)) (Some 0%Q)])].
Definition demo (its stepint : N) : stage :=
  mkStage "train" its 0 stepint SAll N (fun r => ((r + 1)%N, r))
    (fun t r => (st_of (unmk t), mk (unmk t * 10 + Z.of_N r)))
    (fun t r => (t, r)) (fun _ => "step,loss") (fun n _ => "row" ++ fmt06 n).

Lemma mk_fine : forall z, fine (mk 0) (mk z).
Proof.
  intros z. split; [split; [|split]|reflexivity].
  - simpl. constructor; [simpl; tauto|constructor].
  - simpl. intros n [<-|[]]. repeat split; discriminate.
  - simpl. intros p l [E|[]]. inversion E; subst. intro H; discriminate.
Qed.
Lemma demo_wf : forall its k, (0 < k)%N -> (its <= 1000000)%N -> well_formed (demo its k) (mk 0).
Proof.
  intros its k Hk Hi. constructor; simpl; auto.
  - apply mk_fine.
  - intros. apply mk_fine.
Qed.

(** Environments: run freely; stop at one step; be killed at one step. *)
Definition env0 : N -> tick := fun n => mkTick n false None.
Definition env_exit (s : N) : N -> tick := fun n => mkTick n (n =? s)%N None.
Definition env_kill (s : N) (c : crashpoint) : N -> tick :=
  fun n => mkTick n false (if (n =? s)%N then Some c else None).
Definition at_ {c} (r : rng c) e : attempt c := mkAttempt c r 0 e.

(** ** C06  Each step runs exactly once *)
(** Over any sequence of launches that are never killed (but may be asked to stop, or
    stop because of NaN, at any step) the executed steps are exactly 0, ..., m-1 in this
    order; m is where the next launch resumes. *)
Theorem C06_each_step_once : forall c init d launches,
  well_formed c init -> NoDup (map fst d) -> no_ckpt (sname c) d -> Forall graceful launches ->
  let acts := all_actions (history c d init launches) in
  exists m st, (m <= iterations c)%N /\ executed acts = steps_upto m /\
    restore (sname c) (Dir (ckpt_after (sname c) d acts)) init false = Ok (m, st).
Proof.
  intros c init d hs W ND NC G acts.
  destruct (history_graceful c init d W ND NC hs G) as [E L]. fold (acts_of c init d hs) in acts.
  assert (K: Forall killable hs) by (eapply Forall_impl; [|exact G]; apply graceful_killable).
  pose proof (history_inv c init d W ND NC hs K) as I. cbv zeta in I. rewrite resume_fst in I.
  exists (next_step acts), (snd (resume (0%N, init) acts)). split; [exact L|]. split.
  - unfold acts. rewrite E. unfold steps_upto. rewrite <- nrange_seq. reflexivity.
  - rewrite ckpt_after_run. apply restore_inv; auto.
Qed.
Print Assumptions C06_each_step_once.

(** A launch that returns normally leaves its final state in the directory as the
    checkpoint of the last step; this holds after arbitrary kills too. *)
Theorem C06_normal_return_saved : forall c init d launches a t,
  well_formed c init -> NoDup (map fst d) -> no_ckpt (sname c) d ->
  Forall killable launches -> killable a ->
  snd (run c (ckpt_after (sname c) d (all_actions (history c d init launches))) init
         (akey a) (astart a) (aenv a)) = Done t ->
  restore (sname c)
    (Dir (ckpt_after (sname c) d (all_actions (history c d init (launches ++ [a])%list)))) init false
  = Ok (iterations c, t).
Proof. intros. apply done_restores; auto. Qed.
Print Assumptions C06_normal_return_saved.

Example C06_witness :
  let r := history (demo 5 2) [] (mk 0) [at_ (c := demo 5 2) 0%N (env_exit 2); at_ (c := demo 5 2) 0%N env0] in
  executed (all_actions r) = [0;1;2;3;4]%N /\
  map snd r = [Aborted; Done (mk 1201)].
Proof. vm_compute. split; reflexivity. Qed.

(** ** C07  A finished stage is idempotent *)
Theorem C07_finished_idempotent : forall c init d launches a t b,
  well_formed c init -> NoDup (map fst d) -> no_ckpt (sname c) d ->
  Forall killable launches -> killable a ->
  snd (run c (ckpt_after (sname c) d (all_actions (history c d init launches))) init
         (akey a) (astart a) (aenv a)) = Done t ->
  let files := ckpt_after (sname c) d (all_actions (history c d init (launches ++ [a])%list)) in
  let again := run c files init (akey b) (astart b) (aenv b) in
  snd again = Done t /\ executed (fst again) = [] /\
  ckpt_after (sname c) files (fst again) = files /\
  (forall w, csv_after c w (fst again) = w) /\
  (forall w, hmem w = None -> h5_after w (fst again) = w).
Proof.
  intros c init d hs a t b W ND NC K Ka D files again.
  unfold again. rewrite (run_finished c files init t b).
  - repeat split. intros [x y] H. simpl in H. subst. reflexivity.
  - unfold files. apply done_restores; auto.
Qed.
Print Assumptions C07_finished_idempotent.

(** ** C08  Periodic saves bound the loss *)
(** In a launch that is not killed, the checkpoint of an executed step is written iff it
    is the last step, or the run stops there, or both intervals are satisfied; [clock] is
    the time of the previous save of this launch (its start if there is none). *)
Theorem C08_save_rule : forall c init d launches a,
  well_formed c init -> NoDup (map fst d) -> no_ckpt (sname c) d ->
  Forall killable launches -> graceful a ->
  let acts := fst (run c (ckpt_after (sname c) d (all_actions (history c d init launches))) init
                     (akey a) (astart a) (aenv a)) in
  forall pre s x post, acts = (pre ++ Exec s :: Write s x :: post)%list ->
  ((exists t, In (Save s t) acts) <->
   s = (iterations c - 1)%N \/ has_nan (nan_policy c) x = true \/ exit_requested (aenv a s) = true \/
   ((clock (aenv a) pre (astart a) + save_time_interval c < now (aenv a s))%N /\
    ((s + 1) mod save_step_interval c = 0)%N)).
Proof.
  intros c init d hs a W ND NC K G acts pre s x post E.
  pose proof (history_inv c init d W ND NC hs K) as I. cbv zeta in I. rewrite resume_fst in I.
  unfold acts in *. clear acts. fold (acts_of c init d hs) in *. rewrite ckpt_after_run in *.
  unfold run in *. rewrite (restore_inv c init d _ _ _ W ND NC I) in *.
  remember (next_step (acts_of c init d hs)) as n.
  destruct (N.leb_spec (iterations c) n).
  - destruct pre as [|? [|? ?]]; discriminate.
  - pose proof (inv_fine _ _ _ _ _ I) as F.
    remember (snd (resume (0%N, init) (acts_of c init d hs))) as st.
    assert (F1: fine init (fst (if (n =? 0)%N then burn_in c st (akey a) else (st, akey a)))).
    { destruct (n =? 0)%N; auto. apply W; auto. }
    destruct (if (n =? 0)%N then burn_in c st (akey a) else (st, akey a)) as [st1 k1]. cbn [fst] in F1.
    pose proof (loop_save_rule c init (aenv a) W G (N.to_nat (iterations c - n)) n st1 k1 (astart a) F1
      ltac:(lia)) as R.
    destruct (loop c (aenv a) (N.to_nat (iterations c - n)) n st1 k1 (astart a)) as [l o].
    cbn [fst] in *. destruct pre as [|a0 pre]; [discriminate|]. injection E as <- E.
    destruct pre as [|a1 pre]; [discriminate|]. injection E as <- E.
    destruct (R pre s x post E) as [_ R2]. cbn [clock fold_left]. fold (clock (aenv a) pre (astart a)).
    rewrite <- R2. split; intros [t Ht]; exists t; [destruct Ht as [Ht|[Ht|Ht]]; try discriminate; auto|].
    right; right; exact Ht.
Qed.
Print Assumptions C08_save_rule.

(** After any history of launches, killed anywhere (except inside the first three bytes
    of a checkpoint file), the next launch resumes right after the most recent completed
    save, and no save ever completed lies beyond that point. *)
Theorem C08_resume_point : forall c init d launches a,
  well_formed c init -> NoDup (map fst d) -> no_ckpt (sname c) d -> Forall killable launches ->
  let acts := all_actions (history c d init launches) in
  (exists rest, fst (run c (ckpt_after (sname c) d acts) init (akey a) (astart a) (aenv a))
                = Restored (next_step acts) :: rest) /\
  (forall s t, In (Save s t) acts -> (s < next_step acts)%N).
Proof.
  intros c init d hs a W ND NC K acts. split.
  - apply run_starts; auto.
  - apply saves_below; auto.
Qed.
Print Assumptions C08_resume_point.

Example C08_witness :
  let c := demo 9 2 in
  let r := history c [] (mk 0)
     [at_ (c := c) 0%N (env_kill 4 CAfterWrite); at_ (c := c) 5%N (env_kill 5 (CSave (Some 77%nat)))] in
  executed (all_actions r) = [0;1;2;3;4;4;5]%N /\ next_step (all_actions r) = 4%N /\
  Forall killable [at_ (c := c) 0%N (env_kill 4 CAfterWrite); at_ (c := c) 5%N (env_kill 5 (CSave (Some 77%nat)))].
Proof.
  split; [vm_compute; reflexivity|]. split; [vm_compute; reflexivity|].
  constructor; [|constructor; [|constructor]]; intros step k; cbn [aenv at_ env_kill crash];
    unfold env_kill; cbn [crash]; destruct (N.eqb step _); intro H; inversion H; subst; right; lia.
Qed.

(** ** C09  Interrupt and resume *)
(** If the computation does not consume random numbers, every launch that returns
    normally, after whatever interruptions and kills, returns the state of the
    uninterrupted run. *)
Theorem C09_resume_deterministic_partial : forall c init d launches a t k0 u,
  well_formed c init -> NoDup (map fst d) -> no_ckpt (sname c) d ->
  Forall killable launches -> killable a ->
  (forall x r r', compute c x r = compute c x r') ->
  (forall x r r', fst (burn_in c x r) = fst (burn_in c x r')) ->
  snd (run c (ckpt_after (sname c) d (all_actions (history c d init launches))) init
         (akey a) (astart a) (aenv a)) = Done t ->
  snd (run c d init k0 0 env0) = Done u ->
  t = u.
Proof.
  intros c init d hs a t k0 u W ND NC K Ka DET DETB D U.
  set (s0 := fst (burn_in c init k0)).
  assert (SAVES: forall hs, Forall killable hs -> forall s x, In (Save s x) (acts_of c init d hs) ->
            x = state_at c k0 s0 (N.to_nat (s + 1)) ).
  { clear t a Ka D hs K. intros hs. induction hs as [|a hs IH] using rev_ind; intros K s x Hin; [destruct Hin|].
    apply Forall_app in K. destruct K as [K Ka]. inversion Ka; subst.
    rewrite acts_snoc in Hin. apply in_app_or in Hin. destruct Hin as [Hin|Hin]; [eapply IH; eauto|].
    pose proof (history_inv c init d W ND NC hs K) as I. cbv zeta in I.
    rewrite resume_fst in I. rewrite ckpt_after_run in Hin.
    unfold run in Hin. rewrite (restore_inv c init d _ _ _ W ND NC I) in Hin.
    assert (CUR: snd (resume (0%N, init) (acts_of c init d hs)) =
      match newest_save (acts_of c init d hs) with Some (_, t) => t | None => init end) by apply resume_snd.
    assert (NIN: forall l s t, newest_save l = Some (s, t) -> In (Save s t) l).
    { intros l. induction l as [|b l IHl] using rev_ind; intros s1 t1 H; [discriminate|].
      unfold newest_save in H. rewrite fold_left_app in H. apply in_or_app.
      destruct b; cbn [fold_left] in H; try (left; apply IHl; exact H).
      injection H as <- <-. right. left. reflexivity. }
    assert (ST: let n := next_step (acts_of c init d hs) in
       fst (if (n =? 0)%N then burn_in c (snd (resume (0%N, init) (acts_of c init d hs))) (akey a)
            else (snd (resume (0%N, init) (acts_of c init d hs)), akey a)) = state_at c k0 s0 (N.to_nat n)).
    { cbv zeta. rewrite CUR. unfold next_step. destruct (newest_save (acts_of c init d hs)) as [[s1 t1]|] eqn:NS.
      - destruct (N.eqb_spec (s1 + 1) 0); [lia|]. cbn [fst]. eapply IH; eauto.
      - cbn. apply DETB. }
    remember (next_step (acts_of c init d hs)) as n.
    destruct (N.leb_spec (iterations c) n); [destruct Hin as [Hin|[]]; discriminate|].
    cbv zeta in ST.
    destruct (if (n =? 0)%N then _ else _) as [st1 k1]. cbn [fst] in ST.
    destruct (loop_det c (aenv a) k0 s0 DET (N.to_nat (iterations c - n)) n st1 k1 (astart a) ST ltac:(lia)) as [L1 _].
    destruct (loop c (aenv a) (N.to_nat (iterations c - n)) n st1 k1 (astart a)) as [l o]. cbn [fst] in *.
    destruct Hin as [Hin|[Hin|Hin]]; try discriminate. apply L1. exact Hin. }
  assert (FIN: forall hs a t, Forall killable hs -> killable a ->
     snd (run c (ckpt_after (sname c) d (acts_of c init d hs)) init (akey a) (astart a) (aenv a)) = Done t ->
     (0 < iterations c)%N -> t = state_at c k0 s0 (N.to_nat (iterations c))).
  { clear t a Ka D hs K. intros hs a t K Ka D Hit.
    pose proof (done_restores c init d W ND NC hs a t K Ka D) as R.
    assert (K2: Forall killable (hs ++ [a])%list) by (apply Forall_app; split; auto).
    pose proof (history_inv c init d W ND NC (hs ++ [a])%list K2) as I2. cbv zeta in I2.
    rewrite ckpt_after_run, (restore_inv _ _ d _ _ _ W ND NC I2) in R.
    rewrite resume_fst in R. injection R as R1 R2. rewrite resume_snd in R2. unfold next_step in R1.
    destruct (newest_save (acts_of c init d (hs ++ [a]))) as [[s1 t1]|] eqn:NS; [|lia].
    subst t1. rewrite <- R1. apply (SAVES (hs ++ [a])%list K2).
    clear -NS. revert s1 t NS. induction (acts_of c init d (hs ++ [a])) as [|b l IHl] using rev_ind;
      intros s1 t1 H; [discriminate|].
    unfold newest_save in H. rewrite fold_left_app in H. apply in_or_app.
    destruct b; cbn [fold_left] in H; try (left; apply IHl; exact H).
    injection H as <- <-. right. left. reflexivity. }
  destruct (N.eq_dec (iterations c) 0) as [Z|NZ].
  - (* no step at all *)
    pose proof (history_inv c init d W ND NC hs K) as I. cbv zeta in I.
    rewrite ckpt_after_run in D. fold (acts_of c init d hs) in D.
    assert (IT: forall files (b : attempt c), restore (sname c) (Dir files) init false = Ok (0%N, init) ->
       snd (run c files init (akey b) (astart b) (aenv b)) = Done init).
    { intros files b R. unfold run. rewrite R, Z. reflexivity. }
    pose proof (restore_inv _ _ d _ _ _ W ND NC I) as R.
    assert (M0: fst (resume (0%N, init) (acts_of c init d hs)) = 0%N) by (pose proof (inv_le _ _ _ _ _ I); lia).
    pose proof (inv_cur _ _ _ _ _ I) as C. rewrite M0 in R, C. cbn in C. rewrite C in R.
    rewrite (IT _ a R) in D. injection D as <-.
    specialize (IT d (mkAttempt c k0 0%N env0) (restore_none _ _ _ NC)). cbn [akey astart aenv] in IT.
    rewrite IT in U. injection U as <-. reflexivity.
  - rewrite (FIN hs a t K Ka D ltac:(lia)).
    symmetry. apply (FIN [] (mkAttempt c k0 0%N env0) u); auto.
    + intros step k H. discriminate.
    + lia.
Qed.
Print Assumptions C09_resume_deterministic_partial.

(** In general it does not: the random key is not part of the checkpoint, and the resumed
    launch starts again from the key of the first one, so steps reuse random numbers. *)
Theorem C09_resume_refuted :
  exists (c : stage) init (k : rng c) t u, well_formed c init /\
    map snd (history c [] init [at_ k (env_exit 2); at_ k env0]) = [Aborted; Done t] /\
    map snd (history c [] init [at_ k env0]) = [Done u] /\ t <> u.
Proof.
  exists (demo 5 2), (mk 0), 0%N, (mk 1201), (mk 1234).
  split; [apply demo_wf; lia|]. split; [vm_compute; reflexivity|]. split; [vm_compute; reflexivity|discriminate].
Qed.
Print Assumptions C09_resume_refuted.

(** ** C10  NaN stops the run *)
(** What the policy watches: with True every statistic, with a list the listed ones. *)
Definition watches (p : stop_on_nan) (key : string) : Prop :=
  match p with SNo => False | SAll => True | SKeys ks => ks <> "" /\ In key (split_comma ks) end.
Definition nan_seen (p : stop_on_nan) (x : stats) : Prop :=
  exists key vals v, In (key, vals) x /\ watches p key /\ In v vals /\ re v = None.

Lemma nan_seen_iff : forall p x, nan_seen p x <-> has_nan p x = true.
Proof.
  intros p x. rewrite has_nan_iff. unfold nan_seen.
  assert (M: forall key, monitored p key = true <-> watches p key).
  { intros key. destruct p; simpl; try (split; [discriminate|tauto]); [tauto|].
    destruct (String.eqb_spec keys ""); simpl.
    - split; [discriminate|tauto].
    - rewrite existsb_exists. split.
      + intros [y [Hy E]]. apply String.eqb_eq in E. subst. auto.
      + intros [_ H]. exists key. split; auto. apply String.eqb_refl. }
  split; intros [k [vs [v [H1 [H2 [H3 H4]]]]]]; exists k, vs, v; repeat split; auto; apply M; auto.
Qed.

(** In any launch, on any directory, a step whose recorded statistics contain a watched NaN
    is the last step executed, and the launch does not return normally. *)
Theorem C10_nan_is_last : forall c files init k t0 env pre s x post,
  fst (run c files init k t0 env) = (pre ++ Write s x :: post)%list ->
  nan_seen (nan_policy c) x ->
  executed post = [] /\ forall t, snd (run c files init k t0 env) <> Done t.
Proof.
  intros c files init k t0 env pre s x post E N. apply nan_seen_iff in N.
  unfold run in *. destruct (restore _ _ _ _) as [[n st]|]; [|destruct pre; discriminate].
  destruct (iterations c <=? n)%N; [destruct pre as [|? [|? ?]]; discriminate|].
  destruct (if (n =? 0)%N then _ else _) as [st1 k1].
  pose proof (loop_nan c env (N.to_nat (iterations c - n)) n st1 k1 t0) as L.
  destruct (loop c env (N.to_nat (iterations c - n)) n st1 k1 t0) as [l o]. cbn [fst snd] in *.
  destruct pre as [|a0 pre]; [discriminate|]. injection E as <- E.
  destruct pre as [|a1 pre]; [discriminate|]. injection E as <- E.
  eapply L; eauto.
Qed.
Print Assumptions C10_nan_is_last.

(** With the policy off a launch that nobody stops or kills returns normally, whatever the
    statistics contain. *)
Theorem C10_disabled_never_stops : forall c init d launches a,
  well_formed c init -> NoDup (map fst d) -> no_ckpt (sname c) d -> Forall killable launches ->
  nan_policy c = SNo -> graceful a -> (forall n, exit_requested (aenv a n) = false) ->
  exists t, snd (run c (ckpt_after (sname c) d (all_actions (history c d init launches))) init
                   (akey a) (astart a) (aenv a)) = Done t.
Proof.
  intros c init d hs a W ND NC K P G X.
  pose proof (history_inv c init d W ND NC hs K) as I. cbv zeta in I.
  fold (acts_of c init d hs). rewrite ckpt_after_run. unfold run.
  rewrite (restore_inv c init d _ _ _ W ND NC I).
  destruct (resume (0%N, init) (acts_of c init d hs)) as [n st]. cbn [fst snd] in *.
  destruct (iterations c <=? n)%N; [simpl; eauto|].
  pose proof (inv_fine _ _ _ _ _ I) as F.
  assert (F1: fine init (fst (if (n =? 0)%N then burn_in c st (akey a) else (st, akey a)))).
  { destruct (n =? 0)%N; auto. apply W; auto. }
  destruct (if (n =? 0)%N then burn_in c st (akey a) else (st, akey a)) as [st1 k1]. cbn [fst] in F1.
  destruct (loop_done c init (aenv a) W G X) with (fuel := N.to_nat (iterations c - n)) (n := n) (st := st1)
     (r := k1) (last := astart a) as [t Ht]; auto.
  - intro x. rewrite P. unfold has_nan. induction x as [|[? ?] x IH]; auto.
  - exists t. destruct (loop c (aenv a) _ n st1 k1 (astart a)). exact Ht.
Qed.
Print Assumptions C10_disabled_never_stops.

(** A NaN that appears only in the imaginary part is not noticed. *)
Theorem C10_imaginary_nan_refuted :
  exists x v, In ("loss", [v]) x /\ im v = None /\ has_nan SAll x = false.
Proof. exists [("loss", [mkNum (Some 0%Q) None])], (mkNum (Some 0%Q) None). simpl. auto. Qed.
Print Assumptions C10_imaginary_nan_refuted.

Definition nanstage : stage :=
  mkStage "train" 9 0 4 (SKeys "energy,loss") N (fun r => ((r + 1)%N, r))
    (fun t r => ((if (unmk t =? 3)%Z then [("loss", [mkNum None (Some 0%Q)])] else st_of 1), mk (unmk t + 1)))
    (fun t r => (t, r)) (fun _ => "step,loss") (fun n _ => "row" ++ fmt06 n).
Example C10_witness :
  let r := history nanstage [] (mk 0) [at_ (c := nanstage) 0%N env0] in
  executed (all_actions r) = [0;1;2;3]%N /\ map snd r = [Aborted].
Proof. vm_compute. split; reflexivity. Qed.

(** ** C12  The CSV log stays aligned with steps *)
(** After any history of launches and kills, if the last launch was not killed the log is
    a header followed by one row per step 0..m-1, in order, row k rendering the
    statistics most recently computed for step k; m is where the next launch resumes.
    (A log without any row may also be absent.) *)
Theorem C12_csv_aligned_partial : forall c init d hdr launches a,
  well_formed c init -> NoDup (map fst d) -> no_ckpt (sname c) d ->
  (forall t r, csv_header c (fst (compute c t r)) = hdr) ->
  Forall killable (launches ++ [a])%list -> Forall header_whole (launches ++ [a])%list ->
  snd (run c (ckpt_after (sname c) d (all_actions (history c d init launches))) init
         (akey a) (astart a) (aenv a)) <> Killed ->
  let acts := all_actions (history c d init (launches ++ [a])%list) in
  let log := cfile (csv_after c (mkCsvw [] true) acts) in
  exists ss, N.of_nat (length ss) = next_step acts /\
    (forall k, (k < next_step acts)%N -> last_written acts k = nth_error ss (N.to_nat k)) /\
    (log = csv_log c hdr ss \/ ss = [] /\ log = []).
Proof.
  intros c init d hdr hs a W ND NC HH K KH NKL acts log.
  destruct (csv_history c init d hdr W ND NC HH (hs ++ [a])%list K KH) as [ss [tail [E1 [E2 [E3 [E4 [E5 E6]]]]]]].
  destruct (E6 hs a eq_refl NKL) as [-> L]. fold (acts_of c init d (hs ++ [a])) in *.
  exists ss. split; [exact L|]. split.
  - intros k Hk. apply E5. unfold acts in Hk. lia.
  - destruct E1 as [[-> [_ E]]|E]; [right; auto|left]. unfold log, acts. rewrite E, app_nil_r. reflexivity.
Qed.
Print Assumptions C12_csv_aligned_partial.

Example C12_witness :
  let c := demo 6 2 in
  let hs := [at_ (c := c) 0%N (env_kill 4 (CWrite true "ro")); at_ (c := c) 5%N (env_kill 3 CAfterWrite);
             at_ (c := c) 5%N env0] in
  map body (cfile (csv_after c (mkCsvw [] true) (all_actions (history c [] (mk 0) hs))))
  = ["step,loss"; "row000000"; "row000001"; "row000002"; "row000003"; "row000004"; "row000005"].
Proof. vm_compute. reflexivity. Qed.

(** Missing from the partial theorem: a kill in the middle of writing the very first line.
    The fragment is then taken for the header, rows are glued to it and the first row is
    lost as a row. *)
Theorem C12_torn_header_refuted :
  exists (c : stage) init (h : list (attempt c)), well_formed c init /\
    map body (cfile (csv_after c (mkCsvw [] true) (all_actions (history c [] init h))))
    = ["steprow000000"; "row000001"].
Proof.
  exists (demo 2 1), (mk 0), [at_ (c := demo 2 1) 0%N (env_kill 0 (CWrite false "step"));
                              at_ (c := demo 2 1) 0%N env0].
  split; [apply demo_wf; lia|]. vm_compute. reflexivity.
Qed.
Print Assumptions C12_torn_header_refuted.

(** ** C13  The HDF5 log stays aligned with steps *)
(** In histories without kills every dataset holds exactly one entry per executed step. *)
Theorem C13_hdf5_aligned_partial : forall c init d keys launches,
  well_formed c init -> NoDup (map fst d) -> no_ckpt (sname c) d ->
  NoDup keys -> (forall t r, map fst (fst (compute c t r)) = keys) ->
  Forall graceful launches ->
  let acts := all_actions (history c d init launches) in
  let log := hdisk (h5_after (mkH5 [] None) acts) in
  exists ss, N.of_nat (length ss) = next_step acts /\
    (forall k, (k < next_step acts)%N -> last_written acts k = nth_error ss (N.to_nat k)) /\
    (ss <> [] -> forall key, In key keys ->
       exists entries, dict_get log key = Some entries /\
         entries = map (fun s => match dict_get s key with Some v => v | None => [] end) ss).
Proof.
  intros c init d keys hs W ND NC NK HK G acts log.
  destruct (h5_history c init d keys W ND NC NK HK hs G) as [ss [E1 [E2 [E3 E4]]]].
  fold (acts_of c init d hs) in *. exists ss. split; auto. split; auto.
  intros Hne key Hin. exists (map (val key) ss). split; [|reflexivity].
  unfold log, h5_after. cbn [hdisk]. unfold acts. rewrite E4. cbn [hdisk].
  rewrite (E3 key). destruct ss; [congruence|].
  replace (existsb (String.eqb key) keys) with true; auto.
  symmetry. apply existsb_exists. exists key. split; auto. apply String.eqb_refl.
Qed.
Print Assumptions C13_hdf5_aligned_partial.

(** Kills included: as long as no run is killed between completing a checkpoint and closing
    its writers, the log after a run that was not killed holds, for every key, exactly the
    statistics most recently written for steps 0..m-1, where m is the step the next launch
    resumes at.  Rows beyond the resume point, left by a run whose last checkpoint was cut
    off, are removed. *)
Theorem C13_hdf5_aligned_with_kills : forall c init d keys launches a,
  well_formed c init -> NoDup (map fst d) -> no_ckpt (sname c) d ->
  NoDup keys -> (forall t r, map fst (fst (compute c t r)) = keys) ->
  Forall killable (launches ++ [a])%list ->
  Forall harmless (history c d init (launches ++ [a])%list) ->
  snd (run c (ckpt_after (sname c) d (all_actions (history c d init launches))) init
         (akey a) (astart a) (aenv a)) <> Killed ->
  let acts := all_actions (history c d init (launches ++ [a])%list) in
  let log := hdisk (h5_after (mkH5 [] None) acts) in
  exists ss, N.of_nat (length ss) = next_step acts /\
    (forall k, (k < next_step acts)%N -> last_written acts k = nth_error ss (N.to_nat k)) /\
    (ss <> [] -> forall key, In key keys ->
       dict_get log key = Some (map (fun s => match dict_get s key with Some v => v | None => [] end) ss)).
Proof.
  intros c init d keys hs a W ND NC NK HK K HL NKL acts log.
  destruct (h5_history_kill c init d keys W ND NC NK HK (hs ++ [a])%list K HL) as [ss [E1 [E2 [E3 E4]]]].
  fold (acts_of c init d (hs ++ [a])) in *. exists ss. split; [exact (E4 hs a eq_refl NKL)|]. split; auto.
  intros Hne key Hin. specialize (E3 key).
  replace (existsb (String.eqb key) keys) with true in E3.
  - destruct E3 as [E3|[E3 _]]; [exact E3|contradiction].
  - symmetry. apply existsb_exists. exists key. split; auto. apply String.eqb_refl.
Qed.
Print Assumptions C13_hdf5_aligned_with_kills.

(** A kill breaks it: nothing is flushed before the file is closed, so rows of steps that
    a checkpoint already covers are gone, and later rows take their place. *)
Theorem C13_kill_loses_rows_refuted :
  exists (c : stage) init (h : list (attempt c)) t, well_formed c init /\ iterations c = 4%N /\
    map snd (history c [] init h) = [Killed; Done t] /\
    exists es, dict_get (hdisk (h5_after (h5_after (mkH5 [] None) (fst (nth 0 (history c [] init h) ([], Killed))))
       (fst (nth 1 (history c [] init h) ([], Killed))))) "loss" = Some es /\ length es = 2%nat.
Proof.
  exists (demo 4 2), (mk 0), [at_ (c := demo 4 2) 0%N (env_kill 2 CAfterWrite); at_ (c := demo 4 2) 0%N env0].
  eexists. split; [apply demo_wf; lia|]. split; [reflexivity|].
  split; [vm_compute; reflexivity|]. eexists. split; vm_compute; reflexivity.
Qed.
Print Assumptions C13_kill_loses_rows_refuted.

(** ** C14  Evaluation statistics count each step once *)
Theorem C14_eval_once_partial : forall c init d keys launches a t,
  well_formed c init -> NoDup (map fst d) -> no_ckpt (sname c) d ->
  NoDup keys -> (forall t r, map fst (fst (compute c t r)) = keys) ->
  Forall graceful launches -> graceful a ->
  snd (run c (ckpt_after (sname c) d (all_actions (history c d init launches))) init
         (akey a) (astart a) (aenv a)) = Done t ->
  let acts := all_actions (history c d init (launches ++ [a])%list) in
  let records := eval_after [] acts in
  exists ss, N.of_nat (length ss) = iterations c /\
    (forall k, (k < iterations c)%N -> last_written acts k = nth_error ss (N.to_nat k)) /\
    (ss <> [] -> forall key, In key keys ->
       dict_get records key = Some (map (fun s => match dict_get s key with Some v => v | None => [] end) ss)).
Proof.
  intros c init d keys hs a t W ND NC NK HK G Ga D acts records.
  assert (G2: Forall graceful (hs ++ [a])%list) by (apply Forall_app; split; auto).
  assert (K2: Forall killable (hs ++ [a])%list) by (eapply Forall_impl; [|exact G2]; apply graceful_killable).
  assert (K: Forall killable hs) by (eapply Forall_impl; [|exact G]; apply graceful_killable).
  destruct (h5_history c init d keys W ND NC NK HK (hs ++ [a])%list G2) as [ss [E1 [E2 [E3 E4]]]].
  assert (NS: next_step acts = iterations c).
  { pose proof (done_restores c init d W ND NC hs a t K (graceful_killable _ _ Ga) D) as R.
    pose proof (history_inv c init d W ND NC (hs ++ [a])%list K2) as I2. cbv zeta in I2.
    rewrite ckpt_after_run, (restore_inv _ _ d _ _ _ W ND NC I2) in R.
    rewrite resume_fst in R. injection R as R1 R2. exact R1. }
  fold (acts_of c init d (hs ++ [a])) in acts. fold acts in E1, E2, E3. rewrite NS in *.
  exists ss. split; auto. split; auto. intros Hne key Hin.
  unfold records. rewrite (E3 key). destruct ss; [congruence|].
  replace (existsb (String.eqb key) keys) with true; auto.
  symmetry. apply existsb_exists. exists key. split; auto. apply String.eqb_refl.
Qed.
Print Assumptions C14_eval_once_partial.

(** After a kill the records of re-executed steps are appended a second time: the file is
    never cut back to the resume point. *)
Theorem C14_kill_duplicates_refuted :
  exists (c : stage) init (h : list (attempt c)) t, well_formed c init /\ iterations c = 4%N /\
    map snd (history c [] init h) = [Killed; Done t] /\
    exists es, dict_get (eval_after [] (all_actions (history c [] init h))) "loss" = Some es /\ length es = 5%nat.
Proof.
  exists (demo 4 2), (mk 0), [at_ (c := demo 4 2) 0%N (env_kill 2 CAfterWrite); at_ (c := demo 4 2) 0%N env0].
  eexists. split; [apply demo_wf; lia|]. split; [reflexivity|].
  split; [vm_compute; reflexivity|]. eexists. split; vm_compute; reflexivity.
Qed.
Print Assumptions C14_kill_duplicates_refuted.

Example C13_C14_witness :
  let c := demo 5 2 in
  let hs := [at_ (c := c) 0%N (env_exit 1); at_ (c := c) 5%N env0] in
  map (fun kv => (fst kv, length (snd kv))) (eval_after [] (all_actions (history c [] (mk 0) hs))) = [("loss", 5%nat)].
Proof. vm_compute. reflexivity. Qed.

(** Non-trivial case for C13 with kills: the first run is asked to stop at step 4, closes its
    log with five rows and is killed while saving; the second is killed before any save; the
    third completes.  Truncation to the resume point matters. *)
Definition env_exit_cut (s : N) : N -> tick := fun n => mkTick n (n =? s)%N (if (n =? s)%N then Some (CSave (Some 0%nat)) else None).
Example C13_kills_witness :
  let c := demo 7 3 in
  let hs := [at_ (c := c) 0%N (env_exit_cut 4); at_ (c := c) 5%N (env_kill 4 CAfterWrite); at_ (c := c) 6%N env0] in
  let h := history c [] (mk 0) hs in
  Forall killable hs /\ Forall harmless h /\ map is_killed (map snd h) = [true; true; false] /\
  map (fun l => match dict_get (hdisk (h5_after (mkH5 [] None) (all_actions l))) "loss" with
                | Some es => length es | None => 0%nat end) [firstn 1 h; firstn 2 h; h] = [5; 5; 7]%nat /\
  next_step (all_actions (firstn 1 h)) = 3%N.
Proof.
  intros c hs h. split; [|split].
  - apply Forall_cons; [|apply Forall_cons; [|apply Forall_cons; [|apply Forall_nil]]]; intros s k; cbn.
    + destruct (s =? 4)%N; intros H; inversion H; auto.
    + destruct (s =? 4)%N; intros H; inversion H.
    + discriminate.
  - vm_compute. apply Forall_cons; [|apply Forall_cons; [|apply Forall_cons; [|apply Forall_nil]]]; intros K.
    + left. tauto.
    + right. intros s t H. intuition discriminate.
    + discriminate.
  - vm_compute. repeat split.
Qed.
