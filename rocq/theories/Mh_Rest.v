(** C93: writers, random keys; concrete cases. *)
From Coq Require Import List Arith ZArith Bool Lia.
From Verif Require Import Mh_Spec Mh_Model Mh_Props Mh_Data.
Import ListNotations.

(** ** Writers *)
Lemma open_from_spec : forall opens k i n ok, open_from opens i k = (n, ok) ->
  i <= n <= i + k /\ (forall j, i <= j < n -> opens j = true) /\ (ok = true <-> n = i + k) /\ (ok = false -> opens n = false).
Proof.
  intros opens k. induction k as [|k IH]; intros i n ok H; cbn [open_from] in H.
  - injection H as <- <-. repeat split; try lia; try discriminate.
  - destruct (opens i) eqn:E.
    + apply IH in H. destruct H as (A & B & C & D). repeat split; try lia; auto.
      * intros j Hj. destruct (Nat.eq_dec j i) as [->|]; [exact E|apply B; lia].
      * intro O. apply C in O. lia.
      * intro O. apply C. lia.
    + injection H as <- <-. repeat split; try lia; try discriminate; auto.
Qed.
Lemma write_all_spec : forall writes s k i l ok, write_all writes s i k = (l, ok) ->
  exists rest, map (fun j => WWrite j s) (seq i k) = l ++ rest /\
    (ok = true -> rest = [] /\ forall j, i <= j < i + k -> writes j s = true) /\
    (ok = false -> exists pre j, l = pre ++ [WWrite j s] /\ writes j s = false /\ forall e, In e pre -> exists j', e = WWrite j' s /\ writes j' s = true).
Proof.
  intros writes s k. induction k as [|k IH]; intros i l ok H; cbn [write_all] in H.
  - injection H as <- <-. exists []. cbn. split; [reflexivity|]. split; [|discriminate]. split; [reflexivity|lia].
  - destruct (writes i s) eqn:E.
    + destruct (write_all writes s (S i) k) as (l', ok') eqn:F. injection H as <- <-.
      destruct (IH _ _ _ F) as (rest & A & B & C). exists rest. cbn [seq map app]. rewrite A. split; [reflexivity|]. split.
      * intro O. destruct (B O) as (-> & B'). split; [reflexivity|]. intros j Hj. destruct (Nat.eq_dec j i) as [->|]; [exact E|apply B'; lia].
      * intro O. destruct (C O) as (pre & j & -> & W & P). exists (WWrite i s :: pre), j. split; [reflexivity|]. split; [exact W|].
        intros e [<-|I]; [eauto|apply P; exact I].
    + injection H as <- <-. exists (map (fun j => WWrite j s) (seq (S i) k)). cbn [seq map app]. split; [reflexivity|]. split; [discriminate|].
      intros _. exists [], i. split; [reflexivity|]. split; [exact E|]. intros e [].
Qed.

(** What is written is an initial part of "every step to every writer, in order"; it is cut only right
    after the first write that fails. *)
Lemma write_steps_spec : forall writes k steps, exists rest,
  flat_map (fun s => map (fun j => WWrite j s) (seq 0 k)) steps = write_steps true writes k steps ++ rest /\
  (rest <> [] -> exists pre j s, write_steps true writes k steps = pre ++ [WWrite j s] /\ writes j s = false) /\
  (forall pre j s more, write_steps true writes k steps = pre ++ WWrite j s :: more -> writes j s = false -> more = []).
Proof.
  intros writes k steps. induction steps as [|s steps (rest & A & B & C)].
  { exists []. cbn. split; [reflexivity|]. split; [congruence|]. intros [] ? ? ?; discriminate. }
  cbn [flat_map write_steps]. destruct (write_all writes s 0 k) as (l, ok) eqn:F.
  destruct (write_all_spec _ _ _ _ _ _ F) as (r & E & T & X). rewrite E.
  destruct ok.
  - destruct (T eq_refl) as (-> & W). rewrite app_nil_r in *. exists rest. rewrite A, <- app_assoc. split; [reflexivity|]. split.
    + intro N. destruct (B N) as (pre & j & s' & P & W'). rewrite P. exists (l ++ pre), j, s'. rewrite app_assoc. auto.
    + intros pre j s' more Q W'. destruct (le_lt_dec (length l) (length pre)) as [L|L].
      * apply (C (skipn (length l) pre) j s'); [|exact W'].
        apply (f_equal (skipn (length l))) in Q. rewrite !skipn_app, skipn_all, Nat.sub_diag in Q. cbn [app skipn] in Q.
        rewrite Q. f_equal. replace (length l - length pre) with 0 by lia. reflexivity.
      * exfalso. assert (I : In (WWrite j s') l).
        { apply (f_equal (fun q => nth_error q (length pre))) in Q. rewrite nth_error_app1 in Q by assumption.
          rewrite nth_error_app2, Nat.sub_diag in Q by lia. cbn in Q. eapply nth_error_In; exact Q. }
        rewrite <- E in I. apply in_map_iff in I. destruct I as (x & EQ & I). injection EQ as -> <-. apply in_seq in I.
        rewrite (W j) in W' by lia. discriminate.
  - destruct (X eq_refl) as (pre & j & -> & W & P). rewrite app_nil_r. exists (r ++ flat_map (fun s => map (fun j => WWrite j s) (seq 0 k)) steps).
    rewrite !app_assoc. split; [reflexivity|]. split; [intros _; exists pre, j, s; auto|].
    intros pre' j' s' more Q W'. destruct (le_lt_dec (length pre) (length pre')) as [L|L].
    + apply (f_equal (@length _)) in Q. rewrite !app_length in Q. cbn in Q. destruct more; [reflexivity|cbn in Q; lia].
    + exfalso. apply (f_equal (fun q => nth_error q (length pre'))) in Q. rewrite nth_error_app1 in Q by assumption.
      rewrite nth_error_app2, Nat.sub_diag in Q by lia. cbn in Q. apply nth_error_In in Q. destruct (P _ Q) as (x & EQ & T'). injection EQ as -> ->. congruence.
Qed.

Theorem C93_writers : forall opens writes k steps,
  with_writers false opens writes k steps = [] /\
  exists n body,
    with_writers true opens writes k steps = map WOpen (seq 0 n) ++ body ++ map WClose (rev (seq 0 n)) /\
    n <= k /\ (forall i, i < n -> opens i = true) /\
    ((n < k /\ opens n = false /\ body = [WOpen n]) \/
     (n = k /\ exists rest,
        flat_map (fun s => map (fun i => WWrite i s) (seq 0 k)) steps = body ++ rest /\
        (rest <> [] -> exists pre i s, body = pre ++ [WWrite i s] /\ writes i s = false) /\
        (forall pre i s more, body = pre ++ WWrite i s :: more -> writes i s = false -> more = []))).
Proof.
  intros opens writes k steps. split.
  - unfold with_writers. induction steps as [|s l IH]; [reflexivity|exact IH].
  - unfold with_writers, closes. destruct (open_from opens 0 k) as (n, ok) eqn:E.
    destruct (open_from_spec _ _ _ _ _ E) as (A & B & C & D). exists n, (if ok then write_steps true writes k steps else [WOpen n]).
    split; [reflexivity|]. split; [lia|]. split; [intros; apply B; lia|].
    destruct ok.
    + right. split; [apply C; reflexivity|]. apply write_steps_spec.
    + left. split; [|auto]. destruct (Nat.eq_dec n (0 + k)) as [e|]; [|lia]. apply C in e. discriminate.
Qed.

(** ** Random keys *)
Fixpoint path (k : key) : list nat := match k with Seed _ => [] | Split k i => path k ++ [i] | Fold k i => path k ++ [i] end.
Lemma path_chain : forall k t, path (chain k t) = path k ++ repeat 0 t.
Proof.
  intros k t. induction t as [|t IH]; cbn [chain path]; [rewrite app_nil_r; reflexivity|].
  rewrite IH, <- app_assoc. f_equal. clear. induction t; [reflexivity|]. simpl. f_equal. exact IHt.
Qed.
Lemma device_path : forall seed j d t, path (device_key seed j d t) = 0 :: repeat 0 j ++ 2 :: d :: repeat 0 t ++ [1].
Proof.
  intros. unfold device_key, stage_key. cbn [path]. rewrite path_chain. cbn [path]. rewrite path_chain. cbn [path app].
  rewrite <- !app_assoc. cbn [app]. reflexivity.
Qed.
Theorem C93_keys : forall seed,
  (forall j d t j' d' t', device_key seed j d t = device_key seed j' d' t' -> j = j' /\ d = d' /\ t = t') /\
  (forall p p', data_key seed p = data_key seed p' -> p = p') /\
  (forall p j d t, data_key seed p <> device_key seed j d t) /\
  (forall burn j d step j' d' step', step_key seed j burn 0 d step = step_key seed j' burn 0 d' step' -> j = j' /\ d = d' /\ step = step').
Proof.
  intro seed.
  assert (G : forall j d t j' d' t', device_key seed j d t = device_key seed j' d' t' -> j = j' /\ d = d' /\ t = t').
  { intros j d t j' d' t' H. apply (f_equal path) in H. rewrite !device_path in H. injection H as H.
    revert j' H. induction j as [|j IH]; intros [|j'] H; cbn [repeat app] in H; try discriminate.
    - injection H as -> H. apply (f_equal (@length _)) in H. rewrite !app_length, !repeat_length in H. cbn in H. split; [reflexivity|]. split; [reflexivity|lia].
    - injection H as H. apply IH in H. destruct H as (-> & H). auto. }
  split; [exact G|]. split; [intros p p' H; injection H; auto|]. split; [intros p j d t; discriminate|].
  intros burn j d step j' d' step' H. apply G in H. cbn [Nat.eqb] in H. rewrite !Nat.sub_0_r in H. destruct H as (-> & -> & H).
  split; [reflexivity|]. split; [reflexivity|lia].
Qed.
(** A resumed run starts its keys over: step k+burn+i after a resume at step k uses the key that step i
    of the first run used (with a fixed seed). *)
Theorem C93_keys_after_resume_refuted : forall seed j burn d k i, 0 < k ->
  step_key seed j burn k d (k + burn + i) = step_key seed j burn 0 d i /\ k + burn + i <> i.
Proof.
  intros. unfold step_key. rewrite (proj2 (Nat.eqb_neq k 0)) by lia. cbn [Nat.eqb]. split; [f_equal; lia|lia].
Qed.

(** ** Concrete cases *)
Definition demo_config : config := {| iterations := 4; burn_steps := 1; save_time_interval := 600; save_step_interval := 2 |}.
Definition demo (master : bool) (t : nat -> Z) (a : nat -> bool) : process := {| t0 := 0; now := t; asked := a; is_master := master |}.
Definition slow (s : nat) : Z := (700 * Z.of_nat s)%Z.
Definition slower (s : nat) : Z := (700 * Z.of_nat s + 1)%Z.
(** two processes with equal judgements *)
Example demo_in_step :
  completes (map (fun p => ops (run demo_config (fun _ => false) 0 p)) [demo true slow (fun _ => false); demo false slow (fun _ => false)]) /\
  ops (run demo_config (fun _ => false) 0 (demo true slow (fun _ => false))) = [BurnIn; Compute 0; Compute 1; Gather 1; Compute 2; Compute 3; Gather 3] /\
  files (run demo_config (fun _ => false) 0 (demo true slow (fun _ => false))) = [1; 3].
Proof.
  split; [|split; reflexivity]. apply C93_in_step_partial.
  intros p p' [<-|[<-|[]]] [<-|[<-|[]]]; (split; [reflexivity|]); left; (split; intros; reflexivity).
Qed.
(** an interrupt seen at the same step by both *)
Example demo_interrupt :
  ended (run demo_config (fun _ => false) 0 (demo false slow (fun s => 2 <=? s))) = Aborted 2 /\
  ops (run demo_config (fun _ => false) 0 (demo false slow (fun s => 2 <=? s))) = [BurnIn; Compute 0; Compute 1; Gather 1; Compute 2; Gather 2].
Proof. split; reflexivity. Qed.
(** the refutations apply to the default settings *)
Example demo_clock : exists p p', ~ completes [ops (run demo_config (fun _ => false) 0 p); ops (run demo_config (fun _ => false) 0 p')].
Proof.
  destruct (C93_clock_refuted demo_config (fun _ => false) 0 1) as (p & p' & _ & _ & _ & _ & _ & _ & H); cbn; try lia; auto.
  exists p, p'. exact H.
Qed.
Example demo_signal : exists p p', ~ completes [ops (run demo_config (fun _ => false) 0 p); ops (run demo_config (fun _ => false) 0 p')].
Proof.
  destruct (C93_signal_refuted demo_config (fun _ => false) 0 2) as (p & p' & _ & _ & _ & _ & _ & _ & _ & H); cbn; try lia; auto.
  exists p, p'. exact H.
Qed.
(** 12 walkers on 2 processes with 3 devices each; saved and restored on 4 devices *)
Definition demo_walkers (m : nat) (k : nat) : list nat := map (fun i => 100 * k + i) (seq 0 m).
Example demo_init :
  init_batched_data (fun k p => k + p) demo_walkers 2 3 12 7 = Some [700; 701; 702; 703; 704; 705; 800; 801; 802; 803; 804; 805] /\
  option_map (fun f => map f (seq 0 6)) (device_put 6 (demo_walkers 12 7)) = Some [[700; 701]; [702; 703]; [704; 705]; [706; 707]; [708; 709]; [710; 711]] /\
  init_batched_data (fun k p => k + p) demo_walkers 2 3 10 7 = None /\
  option_map (fun f => map f (seq 0 4)) (device_put 4 (demo_walkers 12 7)) = Some [[700; 701; 702]; [703; 704; 705]; [706; 707; 708]; [709; 710; 711]].
Proof. repeat split; reflexivity. Qed.
(** a density accumulated on 4 devices and continued on 2: every further sample counts twice *)
Example demo_density : let rows := repeat (fun b => if b =? 0 then 5%Z else 0%Z) 4 in
  hist_total rows 0 = 20%Z /\
  option_map (fun sh => hist_total (allgather 2 (hist_run 2 (fun s d b => 1%Z) 0 3 sh)) 0) (device_put 2 rows) = Some 32%Z.
Proof. split; reflexivity. Qed.
Example demo_writers :
  with_writers true (fun _ => true) (fun i s => negb (Nat.eqb i 1 && Nat.eqb s 6)) 2 [5; 6; 7] =
    [WOpen 0; WOpen 1; WWrite 0 5; WWrite 1 5; WWrite 0 6; WWrite 1 6; WClose 1; WClose 0] /\
  with_writers true (fun i => i <? 2) (fun _ _ => true) 3 [5] = [WOpen 0; WOpen 1; WOpen 2; WClose 1; WClose 0].
Proof. split; reflexivity. Qed.
Example demo_keys : device_key 3 1 2 0 <> device_key 3 1 0 2 /\ step_key 3 0 10 50 1 60 = step_key 3 0 10 0 1 0.
Proof. split; [|reflexivity]. intro H. apply C93_keys in H. destruct H as (_ & H & _). discriminate. Qed.
