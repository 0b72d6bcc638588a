From Coq Require Import String Ascii List Bool Arith ZArith NArith QArith Lia Permutation.
From Verif Require Import Common Common_Proofs Ckpt_Model Ckpt_Spec Ckpt_Proofs Stage_Model Stage_Spec.
Import ListNotations.
Open Scope string_scope.

(** ** Shape of a trace *)
Definition okcut (k : option nat) : Prop := match k with Some k => (k = 0 \/ 4 <= k)%nat | None => True end.

Inductive trace (c : stage) (init : tree) : N -> tree -> list action -> outcome -> Prop :=
| T_done : forall st, fine init st -> trace c init (iterations c) st [CloseWriters] (Done st)
| T_kill0 : forall n st, (n < iterations c)%N -> trace c init n st [] Killed
| T_killw : forall n st s hd frag, (n < iterations c)%N ->
    trace c init n st [Exec n; WriteCut n s hd frag] Killed
| T_killa : forall n st s, (n < iterations c)%N ->
    trace c init n st [Exec n; Write n s] Killed
| T_abort : forall n st s st', (n < iterations c)%N -> fine init st' ->
    trace c init n st [Exec n; Write n s; CloseWriters; Save n st'] Aborted
| T_abort_kill : forall n st s st', (n < iterations c)%N -> fine init st' ->
    trace c init n st [Exec n; Write n s; CloseWriters; Save n st'] Killed
| T_abort_cut : forall n st s st' k, (n < iterations c)%N -> fine init st' ->
    trace c init n st [Exec n; Write n s; CloseWriters; SaveCut n st' k] Killed
| T_next : forall n st s st' l o, (n + 1 < iterations c)%N -> fine init st' ->
    trace c init (n + 1) st' l o -> trace c init n st (Exec n :: Write n s :: l) o
| T_save : forall n st s st' l o, (n < iterations c)%N -> fine init st' ->
    trace c init (n + 1) st' l o -> trace c init n st (Exec n :: Write n s :: Save n st' :: l) o
| T_save_kill : forall n st s st', (n < iterations c)%N -> fine init st' ->
    trace c init n st [Exec n; Write n s; Save n st'] Killed
| T_save_cut : forall n st s st' k, (n < iterations c)%N -> fine init st' ->
    trace c init n st [Exec n; Write n s; SaveCut n st' k] Killed.

Definition is_killed (o : outcome) : bool := match o with Killed => true | _ => false end.

Lemma loop_trace : forall c init env, well_formed c init ->
  forall fuel n st r last, fine init st -> (n + N.of_nat fuel = iterations c)%N ->
  trace c init n st (fst (loop c env fuel n st r last)) (snd (loop c env fuel n st r last)).
Proof.
  intros c init env W. induction fuel as [|fuel IH]; intros n st r last F E.
  - simpl. replace n with (iterations c) by lia. constructor. exact F.
  - cbn [loop]. destruct (split c r) as [r' sub].
    pose proof (wf_compute _ _ W st sub F) as F'.
    destruct (compute c st sub) as [s st']. cbn [snd] in F'.
    assert (Hn: (n < iterations c)%N) by lia.
    assert (MA: make_archive n st' = Ok (Archive (("step", mkPayload [] [Z.of_N n]) :: tree_to_npz st'))).
    { apply make_archive_ok. apply F'. }
    pose proof (wf_interval _ _ W) as Hi.
    assert (E0: (save_step_interval c =? 0)%N = false) by (apply N.eqb_neq; lia).
    assert (IH': forall lst, trace c init (n + 1) st' (fst (loop c env fuel (n + 1) st' r' lst))
                               (snd (loop c env fuel (n + 1) st' r' lst))).
    { intro lst. apply IH; auto. lia. }
    rewrite E0.
    destruct (crash (env n)) as [[|hd frag| |k|]|] eqn:CR;
      try (simpl; (apply T_kill0 + apply T_killw + apply T_killa); assumption);
      unfold do_save; rewrite ?MA.
    + destruct (has_nan (nan_policy c) s || exit_requested (env n)).
      * simpl. (apply T_abort_cut + apply T_abort_kill); auto.
      * destruct ((n =? iterations c - 1)%N || _); simpl;
          (apply T_save_cut + apply T_save_kill + apply T_killa); auto.
    + destruct (has_nan (nan_policy c) s || exit_requested (env n)).
      * simpl. (apply T_abort_cut + apply T_abort_kill); auto.
      * destruct ((n =? iterations c - 1)%N || _); simpl;
          (apply T_save_cut + apply T_save_kill + apply T_killa); auto.
    + destruct (has_nan (nan_policy c) s || exit_requested (env n)).
      * simpl. apply T_abort; auto.
      * destruct ((n =? iterations c - 1)%N || _) eqn:D.
        -- specialize (IH' (now (env n))).
           destruct (loop c env fuel (n + 1) st' r' (now (env n))) as [b o]. simpl in *.
           eapply T_save; eauto.
        -- specialize (IH' last).
           destruct (loop c env fuel (n + 1) st' r' last) as [b o]. simpl in *.
           eapply T_next; eauto.
           apply orb_false_elim in D. destruct D as [D _]. apply N.eqb_neq in D. lia.
Qed.

(** ** Events of a trace *)
Definition ev (a : action) : list event :=
  match a with
  | Save s t => [Saved s t]
  | SaveCut s _ k => [Crashed s k]
  | _ => []
  end.
Definition evs (l : list action) : list event := flat_map ev l.

Lemma ckpt_after_run : forall p l d, ckpt_after p d l = run_events p d (evs l).
Proof.
  unfold ckpt_after, run_events. induction l as [|a l IH]; intros d; auto.
  cbn [fold_left evs flat_map]. rewrite fold_left_app, IH.
  destruct a; reflexivity.
Qed.

Lemma evs_app : forall a b, evs (a ++ b)%list = (evs a ++ evs b)%list.
Proof. intros. apply flat_map_app. Qed.

Lemma run_events_app : forall p h1 h2 d, run_events p d (h1 ++ h2)%list = run_events p (run_events p d h1) h2.
Proof. intros. unfold run_events. apply fold_left_app. Qed.

Lemma last_at_snoc : forall h e s,
  last_at (h ++ [e])%list s =
  if touches e && (step_of e =? s)%N then Some e else last_at h s.
Proof.
  induction h as [|e0 h IH]; intros e s.
  - simpl. destruct e as [? ?|? [?|]]; simpl; auto.
  - cbn [app last_at]. rewrite IH.
    destruct (touches e && (step_of e =? s)%N); auto.
Qed.

(** ** The resume invariant *)
Record Inv (c : stage) (init : tree) (h : list event) (m : N) (st : tree) : Prop := {
  inv_small : Forall (fun e => (step_of e < iterations c)%N) h;
  inv_le : (m <= iterations c)%N;
  inv_fine : fine init st;
  inv_cur : if (m =? 0)%N then st = init else last_at h (m - 1) = Some (Saved (m - 1) st);
  inv_above : forall s e, (m <= s)%N -> last_at h s = Some e -> detectable e
}.

Lemma Inv_nil : forall c init, well_formed c init -> Inv c init [] 0 init.
Proof. intros c init W. constructor; simpl; auto; try lia; [apply W | discriminate]. Qed.

Lemma Inv_saved : forall c init h m st s t, Inv c init h m st -> (m <= s < iterations c)%N ->
  fine init t -> Inv c init (h ++ [Saved s t])%list (s + 1) t.
Proof.
  intros c init h m st s t I Hs F. constructor; auto.
  - apply Forall_app. split; [apply I|]. constructor; [simpl; lia|constructor].
  - lia.
  - destruct (N.eqb_spec (s + 1) 0); [lia|].
    rewrite last_at_snoc. simpl. replace (s + 1 - 1)%N with s by lia. rewrite N.eqb_refl. reflexivity.
  - intros s' e Hle. rewrite last_at_snoc. simpl.
    destruct (N.eqb_spec s s'); [lia|]. apply (inv_above _ _ _ _ _ I). lia.
Qed.

Lemma Inv_crashed : forall c init h m st s k, Inv c init h m st -> (m <= s < iterations c)%N ->
  okcut k -> Inv c init (h ++ [Crashed s k])%list m st.
Proof.
  intros c init h m st s k I Hs F. constructor; try apply I.
  - apply Forall_app. split; [apply I|]. constructor; [simpl; lia|constructor].
  - pose proof (inv_cur _ _ _ _ _ I). destruct (N.eqb_spec m 0); auto.
    rewrite last_at_snoc. destruct (touches _); auto. simpl.
    destruct (N.eqb_spec s (m - 1)); [lia|auto].
  - intros s' e Hle. rewrite last_at_snoc. destruct k as [k|]; simpl.
    + destruct (N.eqb_spec s s').
      * intro E. injection E as <-. exists s, k. auto.
      * apply (inv_above _ _ _ _ _ I). lia.
    + apply (inv_above _ _ _ _ _ I). lia.
Qed.

Lemma run_events_untouched : forall p h d, (forall e, In e h -> touches e = false) -> run_events p d h = d.
Proof.
  unfold run_events. induction h as [|e h IH]; intros d H; auto. cbn [fold_left].
  rewrite apply_event_eq. assert (Ht: touches e = false) by (apply H; left; reflexivity).
  destruct e as [? ?|? [?|]]; try discriminate. simpl. apply IH. intros e' He'. apply H. right; exact He'.
Qed.

Lemma restore_none : forall p d fb, no_ckpt p d -> restore p (Dir d) fb false = Ok (0%N, fb).
Proof.
  intros p es fb H. 
  assert (E: filter (fun e => glob_ckpt p (fst e)) es = []).
  { induction es as [|[n f] es IH]; auto. simpl. rewrite (H n f) by (left; reflexivity).
    apply IH. intros n' f' Hin. apply (H n' f'). right; exact Hin. }
  unfold restore. rewrite E. reflexivity.
Qed.

Lemma restore_inv : forall c init d h m st, well_formed c init ->
  NoDup (map fst d) -> no_ckpt (sname c) d -> Inv c init h m st ->
  restore (sname c) (Dir (run_events (sname c) d h)) init false = Ok (m, st).
Proof.
  intros c init d h m st W ND NC I.
  assert (SM: Forall (fun e => (step_of e < 1000000)%N) h).
  { eapply Forall_impl; [|apply (inv_small _ _ _ _ _ I)]. pose proof (wf_iterations _ _ W).
    simpl. intros. lia. }
  pose proof (inv_cur _ _ _ _ _ I) as C. destruct (N.eqb_spec m 0).
  - subst m st. destruct (existsb touches h) eqn:E.
    + rewrite restore_all_torn; auto.
      * intros s e. apply (inv_above _ _ _ _ _ I). lia.
      * apply existsb_exists in E. exact E.
    + rewrite run_events_untouched; [apply restore_none; auto|].
      intros e He. destruct (touches e) eqn:T; auto. 
      assert (existsb touches h = true) by (apply existsb_exists; exists e; auto). congruence.
  - rewrite restore_after_history with (s := (m - 1)%N) (t := st); auto.
    + replace (m - 1 + 1)%N with m by lia. reflexivity.
    + apply (inv_fine _ _ _ _ _ I).
    + apply (inv_fine _ _ _ _ _ I).
    + intros s' e Hlt. apply (inv_above _ _ _ _ _ I). lia.
Qed.

(** The resume point after a trace. *)
Definition upd (r : N * tree) (a : action) : N * tree :=
  match a with Save s t => ((s + 1)%N, t) | _ => r end.
Definition resume (r : N * tree) (l : list action) : N * tree := fold_left upd l r.

Lemma resume_app : forall r a b, resume r (a ++ b)%list = resume (resume r a) b.
Proof. intros. apply fold_left_app. Qed.

Definition cuts_ok (l : list action) : Prop := forall s t k, In (SaveCut s t k) l -> okcut k.

Lemma trace_inv : forall c init n st l o, trace c init n st l o -> cuts_ok l ->
  forall h m st0, Inv c init h m st0 -> (m <= n)%N ->
  Inv c init (h ++ evs l)%list (fst (resume (m, st0) l)) (snd (resume (m, st0) l)).
Proof.
  intros c init n st l o T. induction T; intros CO h m st0 I Hm;
    cbn [evs flat_map ev app]; cbn [resume fold_left upd fst snd];
    rewrite ?app_nil_r; auto.
  - eapply Inv_saved; eauto.
  - eapply Inv_saved; eauto.
  - eapply Inv_crashed; eauto. eapply CO. simpl. eauto.
  - apply IHT; auto; [|lia]. intros s0 t k H1. eapply CO. right; right. eauto.
  - replace (h ++ Saved n st' :: flat_map ev l)%list with ((h ++ [Saved n st']) ++ evs l)%list by (rewrite <- app_assoc; reflexivity).
    apply IHT; auto; [|eapply Inv_saved; eauto|lia]. intros s0 t k H1. eapply CO. right; right; right. eauto.
  - eapply Inv_saved; eauto.
  - eapply Inv_crashed; eauto. eapply CO. simpl. eauto.
Qed.

Lemma loop_cuts : forall c env, 
  (forall step k, crash (env step) = Some (CSave (Some k)) -> (k = 0 \/ 4 <= k)%nat) ->
  forall fuel n st r last, cuts_ok (fst (loop c env fuel n st r last)).
Proof.
  intros c env K. induction fuel as [|fuel IH]; intros n st r last.
  - simpl. intros s t k [E|[]]. discriminate.
  - cbn [loop]. destruct (split c r) as [r' sub]. destruct (compute c st sub) as [s st'].
    assert (P: forall k', crash (env n) = Some (CSave k') -> okcut k').
    { intros k' E. destruct k'; simpl; auto. eapply K; eauto. }
    destruct (crash (env n)) as [[|hd frag| |k|]|] eqn:CR;
      try (intros s0 t0 k0 H; simpl in H; intuition discriminate);
      unfold do_save;
      (destruct (make_archive n st');
       (destruct (has_nan (nan_policy c) s || exit_requested (env n));
        [|destruct (save_step_interval c =? 0)%N; [|destruct ((n =? iterations c - 1)%N || _)]]));
      try (intros s0 t0 k0 H; simpl in H; intuition (try discriminate);
           match goal with H : SaveCut _ _ _ = SaveCut _ _ _ |- _ => inversion H; subst end;
           eapply P; eauto; fail);
      (match goal with |- context [loop c env fuel ?a ?b ?d ?e] =>
           specialize (IH a b d e); destruct (loop c env fuel a b d e) as [bb oo] end;
         intros s0 t0 k0 H; simpl in H; intuition (try discriminate); eapply IH; eauto).
Qed.

(** ** One run *)
Lemma run_shape : forall c init d h m st a, well_formed c init ->
  NoDup (map fst d) -> no_ckpt (sname c) d -> Inv c init h m st ->
  let r := run c (run_events (sname c) d h) init (akey a) (astart a) (aenv a) in
  (iterations c = m /\ r = ([Restored m], Done st)) \/
  ((m < iterations c)%N /\ exists st1 l o, r = (Restored m :: OpenWriters m :: l, o) /\
     trace c init m st1 l o /\ (killable a -> cuts_ok l)).
Proof.
  intros c init d h m st a W ND NC I r. unfold r, run.
  rewrite (restore_inv c init d h m st W ND NC I).
  destruct (N.leb_spec (iterations c) m).
  - left. pose proof (inv_le _ _ _ _ _ I). split; [lia|reflexivity].
  - right. split; auto.
    pose proof (inv_fine _ _ _ _ _ I) as F.
    assert (F1: fine init (fst (if (m =? 0)%N then burn_in c st (akey a) else (st, akey a)))).
    { destruct (m =? 0)%N; auto. apply W; auto. }
    destruct (if (m =? 0)%N then burn_in c st (akey a) else (st, akey a)) as [st1 k1]. cbn [fst] in F1.
    pose proof (loop_trace c init (aenv a) W (N.to_nat (iterations c - m)) m st1 k1 (astart a) F1) as T.
    rewrite N2Nat.id in T. specialize (T ltac:(lia)).
    pose proof (fun K => loop_cuts c (aenv a) K (N.to_nat (iterations c - m)) m st1 k1 (astart a)) as CU.
    destruct (loop c (aenv a) (N.to_nat (iterations c - m)) m st1 k1 (astart a)) as [l o].
    exists st1, l, o. auto.
Qed.

Lemma run_inv : forall c init d h m st a, well_formed c init ->
  NoDup (map fst d) -> no_ckpt (sname c) d -> Inv c init h m st -> killable a ->
  let acts := fst (run c (run_events (sname c) d h) init (akey a) (astart a) (aenv a)) in
  Inv c init (h ++ evs acts)%list (fst (resume (m, st) acts)) (snd (resume (m, st) acts)).
Proof.
  intros c init d h m st a W ND NC I K acts.
  destruct (run_shape c init d h m st a W ND NC I) as [[_ E]|[Hm [st1 [l [o [E [T CU]]]]]]];
    unfold acts; rewrite E; cbn [fst].
  - simpl. rewrite app_nil_r. exact I.
  - cbn [evs flat_map ev app]. cbn [resume fold_left upd].
    apply (trace_inv _ _ _ _ _ _ T (CU K)); auto. lia.
Qed.

(** ** Histories *)
Lemma history_app : forall c init h1 h2 files,
  history c files init (h1 ++ h2)%list =
  (history c files init h1 ++
   history c (ckpt_after (sname c) files (all_actions (history c files init h1))) init h2)%list.
Proof.
  induction h1 as [|a h1 IH]; intros h2 files; auto.
  cbn [app history]. rewrite IH. cbn [app]. f_equal. f_equal. f_equal.
  unfold all_actions. cbn [map concat]. unfold ckpt_after. rewrite <- fold_left_app. reflexivity.
Qed.

Lemma all_actions_app : forall a b, all_actions (a ++ b)%list = (all_actions a ++ all_actions b)%list.
Proof. intros. unfold all_actions. rewrite map_app, concat_app. reflexivity. Qed.

Definition acts_of (c : stage) init d hs := all_actions (history c d init hs).

Lemma acts_snoc : forall c init d hs a,
  acts_of c init d (hs ++ [a])%list =
  (acts_of c init d hs ++
   fst (run c (ckpt_after (sname c) d (acts_of c init d hs)) init (akey a) (astart a) (aenv a)))%list.
Proof.
  intros. unfold acts_of. rewrite history_app, all_actions_app. f_equal.
  unfold all_actions. simpl. apply app_nil_r.
Qed.

Lemma history_inv : forall c init d, well_formed c init -> NoDup (map fst d) -> no_ckpt (sname c) d ->
  forall hs, Forall killable hs ->
  let acts := acts_of c init d hs in
  Inv c init (evs acts) (fst (resume (0%N, init) acts)) (snd (resume (0%N, init) acts)).
Proof.
  intros c init d W ND NC hs. induction hs as [|a hs IH] using rev_ind; intros K acts.
  - apply Inv_nil. exact W.
  - apply Forall_app in K. destruct K as [K Ka]. inversion Ka; subst.
    specialize (IH K). cbv zeta in IH. unfold acts. rewrite acts_snoc, evs_app, resume_app.
    rewrite ckpt_after_run.
    destruct (resume (0%N, init) (acts_of c init d hs)) as [m st]. cbn [fst snd] in *.
    apply run_inv; auto.
Qed.

Lemma resume_next : forall l m0 st0,
  fst (resume (m0, st0) l) = match newest_save l with Some (s, _) => (s + 1)%N | None => m0 end /\
  (snd (resume (m0, st0) l) = match newest_save l with Some (_, t) => t | None => st0 end).
Proof.
  intros l. induction l as [|a l IH] using rev_ind; intros m0 st0; [split; reflexivity|].
  unfold newest_save. rewrite resume_app, fold_left_app. destruct a; cbn [fold_left resume upd]; auto;
    try apply IH.
Qed.
Lemma resume_fst : forall l init, fst (resume (0%N, init) l) = next_step l.
Proof. intros. apply (proj1 (resume_next l 0%N init)). Qed.
Lemma resume_snd : forall l init,
  snd (resume (0%N, init) l) = match newest_save l with Some (_, t) => t | None => init end.
Proof. intros. apply (proj2 (resume_next l 0%N init)). Qed.

(** ** Graceful runs *)
Lemma loop_not_killed : forall c env, (forall n, crash (env n) = None) ->
  forall fuel n st r last, snd (loop c env fuel n st r last) <> Killed.
Proof.
  intros c env G. induction fuel as [|fuel IH]; intros n st r last; [simpl; discriminate|].
  cbn [loop]. destruct (split c r) as [r' sub]. destruct (compute c st sub) as [s st'].
  rewrite G. unfold do_save.
  destruct (make_archive n st');
  (destruct (has_nan (nan_policy c) s || exit_requested (env n)); [simpl; discriminate|]);
  (destruct (save_step_interval c =? 0)%N; [simpl; discriminate|]);
  (destruct ((n =? iterations c - 1)%N || _); [try (simpl; discriminate)|]);
  match goal with |- context [loop c env fuel ?a ?b ?d ?e] =>
    specialize (IH a b d e); destruct (loop c env fuel a b d e) as [bb oo] end; exact IH.
Qed.

Lemma run_not_killed : forall c files init a, graceful a ->
  snd (run c files init (akey a) (astart a) (aenv a)) <> Killed.
Proof.
  intros c files init a G. unfold run. destruct (restore _ _ _ _) as [[n st]|]; [|simpl; discriminate].
  destruct (iterations c <=? n)%N; [simpl; discriminate|].
  destruct (if (n =? 0)%N then _ else _) as [st1 k1].
  pose proof (loop_not_killed c (aenv a) G (N.to_nat (iterations c - n)) n st1 k1 (astart a)) as H.
  destruct (loop c (aenv a) _ n st1 k1 (astart a)). exact H.
Qed.

Fixpoint nrange (n : N) (k : nat) : list N :=
  match k with O => [] | S k' => n :: nrange (n + 1) k' end.

Lemma nrange_app : forall a b n, (nrange n a ++ nrange (n + N.of_nat a) b)%list = nrange n (a + b).
Proof.
  induction a; intros b n; cbn [nrange app plus].
  - replace (n + N.of_nat 0)%N with n by lia. reflexivity.
  - f_equal. rewrite <- IHa. f_equal. f_equal. lia.
Qed.

Lemma nrange_seq : forall k n, nrange (N.of_nat n) k = map N.of_nat (seq n k).
Proof.
  induction k; intros n; simpl; auto. f_equal. rewrite <- IHk. f_equal. lia.
Qed.

Lemma executed_app : forall a b, executed (a ++ b)%list = (executed a ++ executed b)%list.
Proof. intros. apply flat_map_app. Qed.

Lemma trace_graceful : forall c init n st l o, trace c init n st l o -> o <> Killed ->
  exists k, executed l = nrange n k /\
    ((n < iterations c)%N -> (1 <= k)%nat /\ forall r, fst (resume r l) = (n + N.of_nat k)%N) /\
    (forall t, o = Done t -> (n + N.of_nat k = iterations c)%N /\
       (n = iterations c -> st = t) /\
       ((n < iterations c)%N -> forall r, resume r l = (iterations c, t))).
Proof.
  intros c init n st l o T. induction T; intros NK; try congruence.
  - exists 0%nat. split; [reflexivity|]. split; [lia|]. intros t E. inversion E; subst.
    repeat split; auto; lia.
  - exists 1%nat. split; [reflexivity|]. split; [|discriminate].
    intros _. split; auto.
  - destruct (IHT NK) as [k [E1 [E2 E3]]]. exists (S k).
    split; [|split].
    + cbn [nrange]. rewrite <- E1. reflexivity.
    + intros _. destruct (E2 ltac:(lia)) as [Hk Hr]. split; [lia|].
      intro r. change (resume r (Exec n :: Write n s :: l)) with (resume r l). rewrite Hr. lia.
    + intros t Ht. destruct (E3 t Ht) as [H1 [H2 H3]]. split; [lia|]. split; [lia|].
      intros _ r. change (resume r (Exec n :: Write n s :: l)) with (resume r l). apply H3. lia.
  - destruct (IHT NK) as [k [E1 [E2 E3]]]. exists (S k).
    assert (DN: (n + 1 < iterations c)%N \/ (n + 1 = iterations c)%N /\ l = [CloseWriters] /\ o = Done st').
    { destruct (N.lt_ge_cases (n + 1) (iterations c)); auto. right.
      inversion T; subst; try lia. repeat split; auto. }
    split; [|split].
    + cbn [nrange]. rewrite <- E1. reflexivity.
    + intros _. split; [lia|]. intro r.
      change (resume r (Exec n :: Write n s :: Save n st' :: l)) with (resume ((n + 1)%N, st') l).
      destruct DN as [DN|[DN [-> ->]]].
      * destruct (E2 DN) as [Hk Hr]. rewrite Hr. lia.
      * destruct (E3 _ eq_refl) as [H1 _]. cbn [resume fold_left upd fst]. lia.
    + intros t Ht. destruct (E3 t Ht) as [H1 [H2 H3]]. split; [lia|]. split; [lia|].
      intros _ r.
      change (resume r (Exec n :: Write n s :: Save n st' :: l)) with (resume ((n + 1)%N, st') l).
      destruct DN as [DN|[DN [-> Ho]]].
      * apply H3. lia.
      * cbn [resume fold_left upd]. rewrite DN, (H2 DN). reflexivity.
Qed.

Lemma graceful_killable : forall c (a : attempt c), graceful a -> killable a.
Proof. intros c a G step k H. rewrite (G step) in H. discriminate. Qed.

Lemma history_graceful : forall c init d, well_formed c init -> NoDup (map fst d) -> no_ckpt (sname c) d ->
  forall hs, Forall graceful hs ->
  let acts := acts_of c init d hs in
  executed acts = nrange 0 (N.to_nat (next_step acts)) /\ (next_step acts <= iterations c)%N.
Proof.
  intros c init d W ND NC hs. induction hs as [|a hs IH] using rev_ind; intros G acts.
  - split; [reflexivity|]. cbn. lia.
  - apply Forall_app in G. destruct G as [G Ga]. inversion Ga; subst.
    specialize (IH G). cbv zeta in IH.
    assert (K: Forall killable hs).
    { eapply Forall_impl; [|exact G]. apply graceful_killable. }
    pose proof (history_inv c init d W ND NC hs K) as I. cbv zeta in I.
    rewrite resume_fst in I.
    unfold acts. rewrite acts_snoc, executed_app, <- (resume_fst _ init), resume_app.
    rewrite ckpt_after_run.
    remember (acts_of c init d hs) as pre. 
    pose proof (resume_fst pre init) as RF.
    destruct (resume (0%N, init) pre) as [m st]. cbn [fst snd] in *. subst m.
    destruct IH as [IH1 IH2].
    pose proof (run_not_killed c (run_events (sname c) d (evs pre)) init a H1) as NK.
    destruct (run_shape c init d (evs pre) _ st a W ND NC I) as [[E0 E]|[Hm [st1 [l [o [E [T CU]]]]]]];
      rewrite E in *; cbn [fst snd] in *.
    + cbn. rewrite app_nil_r. auto.
    + destruct (trace_graceful _ _ _ _ _ _ T NK) as [k [Ek [E2 E3]]].
      destruct (E2 Hm) as [Hk Hr].
      change (executed (Restored (next_step pre) :: OpenWriters (next_step pre) :: l)) with (executed l).
      change (resume (next_step pre, st) (Restored (next_step pre) :: OpenWriters (next_step pre) :: l))
        with (resume (next_step pre, st) l).
      rewrite Hr, IH1, Ek. split.
      * replace (next_step pre) with (0 + N.of_nat (N.to_nat (next_step pre)))%N at 2 by lia.
        rewrite nrange_app. f_equal. lia.
      * pose proof (inv_le _ _ _ _ _ (trace_inv _ _ _ _ _ _ T (CU (graceful_killable _ _ H1)) _ _ _ I ltac:(lia))) as L.
        rewrite Hr in L. exact L.
Qed.

(** ** Ends of histories *)
Lemma done_restores : forall c init d, well_formed c init -> NoDup (map fst d) -> no_ckpt (sname c) d ->
  forall hs a t, Forall killable hs -> killable a ->
  let before := ckpt_after (sname c) d (acts_of c init d hs) in
  snd (run c before init (akey a) (astart a) (aenv a)) = Done t ->
  restore (sname c) (Dir (ckpt_after (sname c) d (acts_of c init d (hs ++ [a])%list))) init false
   = Ok (iterations c, t).
Proof.
  intros c init d W ND NC hs a t K Ka before D.
  pose proof (history_inv c init d W ND NC hs K) as I. cbv zeta in I.
  assert (K2: Forall killable (hs ++ [a])%list) by (apply Forall_app; split; auto).
  pose proof (history_inv c init d W ND NC (hs ++ [a])%list K2) as I2. cbv zeta in I2.
  pose proof (restore_inv _ _ d _ _ _ W ND NC I2) as R.
  rewrite ckpt_after_run. rewrite R. f_equal.
  unfold before in D. rewrite ckpt_after_run in D.
  rewrite acts_snoc, ckpt_after_run, resume_app.
  destruct (resume (0%N, init) (acts_of c init d hs)) as [m st]. cbn [fst snd] in *.
  destruct (run_shape c init d _ m st a W ND NC I) as [[E0 E]|[Hm [st1 [l [o [E [T CU]]]]]]];
    rewrite E in *; cbn [fst snd] in *.
  - cbn. injection D as <-. congruence.
  - subst o. destruct (trace_graceful _ _ _ _ _ _ T ltac:(discriminate)) as [k [Ek [E2 E3]]].
    destruct (E3 t eq_refl) as [_ [_ H3]].
    change (resume (m, st) (Restored m :: OpenWriters m :: l)) with (resume (m, st) l).
    specialize (H3 Hm (m, st)). destruct (resume (m, st) l). cbn [fst snd]. congruence.
Qed.

Lemma run_finished : forall c files init st (a : attempt c),
  restore (sname c) (Dir files) init false = Ok (iterations c, st) ->
  run c files init (akey a) (astart a) (aenv a) = ([Restored (iterations c)], Done st).
Proof. intros. unfold run. rewrite H. rewrite N.leb_refl. reflexivity. Qed.

Lemma run_starts : forall c init d, well_formed c init -> NoDup (map fst d) -> no_ckpt (sname c) d ->
  forall hs (a : attempt c), Forall killable hs ->
  let acts := acts_of c init d hs in
  exists rest, fst (run c (ckpt_after (sname c) d acts) init (akey a) (astart a) (aenv a))
               = Restored (next_step acts) :: rest.
Proof.
  intros c init d W ND NC hs a K acts.
  pose proof (history_inv c init d W ND NC hs K) as I. cbv zeta in I. rewrite resume_fst in I.
  unfold acts. rewrite ckpt_after_run.
  destruct (run_shape c init d _ _ _ a W ND NC I) as [[E0 E]|[Hm [st1 [l [o [E [T CU]]]]]]];
    rewrite E; cbn [fst]; eauto.
Qed.

(** Saved steps lie below the resume point, and rise. *)
Lemma trace_saves : forall c init n st l o, trace c init n st l o ->
  forall s t, In (Save s t) l -> (n <= s)%N /\ (s < fst (resume (n, st) l))%N.
Proof.
  intros c init n st l o T.
  assert (G: forall r, (fst r <= n)%N -> (fst r <= fst (resume r l))%N /\
     forall s t, In (Save s t) l -> (n <= s)%N /\ (s < fst (resume r l))%N).
  { induction T; intros r Hr; cbn [resume fold_left upd fst];
      try (split; [lia|]; intros s0 t0 H1; simpl in H1; intuition (try discriminate); fail).
    - split; [lia|]. intros s0 t0 H1; simpl in H1; intuition (try discriminate);
        match goal with H : Save _ _ = Save _ _ |- _ => inversion H; subst end; lia.
    - split; [lia|]. intros s0 t0 H1; simpl in H1; intuition (try discriminate);
        match goal with H : Save _ _ = Save _ _ |- _ => inversion H; subst end; lia.
    - fold (resume r l). destruct (IHT r ltac:(lia)) as [A B]. split; auto.
      intros s0 t0 [E|[E|H1]]; try discriminate. destruct (B _ _ H1). lia.
    - fold (resume (n + 1, st')%N l). destruct (IHT (n + 1, st')%N ltac:(simpl; lia)) as [A B]. cbn [fst] in A.
      split; [lia|].
      intros s0 t0 [E|[E|[E|H1]]]; try discriminate.
      + inversion E; subst. lia.
      + destruct (B _ _ H1). lia.
    - split; [lia|]. intros s0 t0 H1; simpl in H1; intuition (try discriminate);
        match goal with H : Save _ _ = Save _ _ |- _ => inversion H; subst end; lia. }
  intros s t. apply (G (n, st)). simpl. lia.
Qed.

Lemma resume_indep : forall l r r', fst r = fst r' -> fst (resume r l) = fst (resume r' l).
Proof.
  induction l as [|a l IH]; intros r r' E; auto. cbn [resume fold_left]. apply IH.
  destruct a; auto.
Qed.

Lemma saves_below : forall c init d, well_formed c init -> NoDup (map fst d) -> no_ckpt (sname c) d ->
  forall hs, Forall killable hs ->
  let acts := acts_of c init d hs in
  forall s t, In (Save s t) acts -> (s < next_step acts)%N.
Proof.
  intros c init d W ND NC hs. induction hs as [|a hs IH] using rev_ind; intros K acts s t Hin; [destruct Hin|].
  apply Forall_app in K. destruct K as [K Ka]. inversion Ka; subst.
  specialize (IH K). cbv zeta in IH.
  pose proof (history_inv c init d W ND NC hs K) as I. cbv zeta in I.
  unfold acts in *. rewrite acts_snoc in *. rewrite ckpt_after_run in *.
  rewrite <- (resume_fst _ init), resume_app. rewrite <- (resume_fst _ init) in IH.
  destruct (resume (0%N, init) (acts_of c init d hs)) as [m st]. cbn [fst snd] in *.
  destruct (run_shape c init d _ m st a W ND NC I) as [[E0 E]|[Hm [st1 [l [o [E [T CU]]]]]]];
    rewrite E in *; cbn [fst] in *.
  - apply in_app_or in Hin. cbn. destruct Hin as [Hin|[Hin|[]]]; [|discriminate]. eapply IH; eauto.
  - change (resume (m, st) (Restored m :: OpenWriters m :: l)) with (resume (m, st) l).
    rewrite (resume_indep l (m, st) (m, st1) eq_refl).
    apply in_app_or in Hin. destruct Hin as [Hin|[Hin|[Hin|Hin]]]; try discriminate.
    + pose proof (trace_saves _ _ _ _ _ _ T) as TS. specialize (IH _ _ Hin).
      assert (m <= fst (resume (m, st1) l))%N; [|lia].
      pose proof (trace_inv _ _ _ _ _ _ T (CU H1) _ _ _ I ltac:(lia)) as I2.
      clear -T. assert (G: forall r, (fst r <= m)%N -> (fst r <= fst (resume r l))%N).
      { clear -T. induction T; intros r Hr; cbn [resume fold_left upd fst]; try lia.
        - fold (resume r l). apply IHT. lia.
        - fold (resume (n + 1, st')%N l). specialize (IHT (n + 1, st')%N ltac:(simpl; lia)).
          cbn [fst] in IHT. lia. }
      apply (G (m, st1)). simpl. lia.
    + apply (trace_saves _ _ _ _ _ _ T _ _ Hin).
Qed.

(** ** When a checkpoint is written *)
(** Clock of the last save, [t] if none. *)
Definition clock (env : N -> tick) (pre : list action) (t : N) : N :=
  fold_left (fun t a => match a with Save s _ => now (env s) | _ => t end) pre t.

Lemma loop_save_rule : forall c init env, well_formed c init -> (forall n, crash (env n) = None) ->
  forall fuel n st r last, fine init st -> (n + N.of_nat fuel = iterations c)%N ->
  forall pre s x post,
  fst (loop c env fuel n st r last) = (pre ++ Exec s :: Write s x :: post)%list ->
  (n <= s)%N /\
  ((exists t, In (Save s t) (fst (loop c env fuel n st r last))) <->
   s = (iterations c - 1)%N \/ has_nan (nan_policy c) x = true \/ exit_requested (env s) = true \/
   ((clock env pre last + save_time_interval c < now (env s))%N /\
    ((s + 1) mod save_step_interval c = 0)%N)).
Proof.
  intros c init env W G. induction fuel as [|fuel IH]; intros n st r last F E pre s x post.
  - simpl. intro H. destruct pre as [|? [|? ?]]; discriminate.
  - cbn [loop]. destruct (split c r) as [r' sub].
    pose proof (wf_compute _ _ W st sub F) as F'.
    destruct (compute c st sub) as [s0 st']. cbn [snd] in F'.
    rewrite G. unfold do_save.
    assert (MA: make_archive n st' = Ok (Archive (("step", mkPayload [] [Z.of_N n]) :: tree_to_npz st'))).
    { apply make_archive_ok. apply F'. }
    rewrite MA. pose proof (wf_interval _ _ W) as Hi.
    assert (E0: (save_step_interval c =? 0)%N = false) by (apply N.eqb_neq; lia).
    rewrite E0.
    assert (T: forall lst, trace c init (n + 1) st' (fst (loop c env fuel (n + 1) st' r' lst))
                               (snd (loop c env fuel (n + 1) st' r' lst))).
    { intro lst. apply loop_trace; auto. lia. }
    assert (IH': forall lst pre s x post, fst (loop c env fuel (n + 1) st' r' lst) =
       (pre ++ Exec s :: Write s x :: post)%list -> _) by (intro lst; apply (IH (n + 1)%N st' r' lst F'); lia).
    clear IH.
    destruct (has_nan (nan_policy c) s0 || exit_requested (env n)) eqn:AB.
    + cbn [fst app]. intro H.
      assert (pre = [] /\ s = n /\ x = s0) as [-> [-> ->]].
      { destruct pre as [|? [|? [|? [|? [|? ?]]]]]; inversion H; auto. }
      split; [lia|]. split; intros _; [|exists st'; simpl; auto].
      apply orb_prop in AB. tauto.
    + apply orb_false_elim in AB. destruct AB as [AB1 AB2].
      destruct ((n =? iterations c - 1)%N || _) eqn:D.
      * specialize (T (now (env n))). specialize (IH' (now (env n))).
        destruct (loop c env fuel (n + 1) st' r' (now (env n))) as [b o]. cbn [fst snd app] in *.
        intro H. destruct pre as [|a0 pre].
        -- inversion H; subst s x; clear H. split; [lia|]. split; [intros _|intros _; exists st'; simpl; auto].
           apply orb_prop in D. destruct D as [D|D]; [left; apply N.eqb_eq; exact D|].
           apply andb_prop in D. destruct D as [D1 D2]. right; right; right.
           cbn. split; [apply N.ltb_lt; exact D1 | apply N.eqb_eq; exact D2].
        -- injection H as <- H. destruct pre as [|a1 pre]; [discriminate|]. injection H as <- H.
           destruct pre as [|a2 pre]; [discriminate|]. injection H as <- H.
           specialize (IH' _ _ _ _ H). destruct IH' as [Hle IH']. split; [lia|].

           split.
           ++ intros [t [Hc|[Hc|[Hc|Hin]]]]; try discriminate.
              ** inversion Hc; subst. lia.
              ** apply IH'. eauto.
           ++ intro Hd. apply IH' in Hd. destruct Hd as [t Hin]. exists t. simpl. auto.
      * specialize (T last). specialize (IH' last).
        destruct (loop c env fuel (n + 1) st' r' last) as [b o]. cbn [fst snd app] in *.
        intro H. destruct pre as [|a0 pre].
        -- inversion H; subst s x; clear H. split; [lia|]. split.
           ++ intros [t [Hc|[Hc|Hin]]]; try discriminate.
              exfalso. subst b. destruct (trace_saves _ _ _ _ _ _ T _ _ Hin). lia.
           ++ intros [Hd|[Hd|[Hd|[Hd1 Hd2]]]]; exfalso.
              ** subst. rewrite N.eqb_refl in D. discriminate.
              ** congruence.
              ** congruence.
              ** cbn in Hd1. apply N.ltb_lt in Hd1. apply N.eqb_eq in Hd2. rewrite Hd1, Hd2 in D.
                 rewrite orb_true_r in D. discriminate.
        -- injection H as <- H. destruct pre as [|a1 pre]; [discriminate|]. injection H as <- H.
           specialize (IH' _ _ _ _ H). destruct IH' as [Hle IH']. split; [lia|].
           split.
           ++ intros [t [Hc|[Hc|Hin]]]; try discriminate. apply IH'. eauto.
           ++ intro Hd. apply IH' in Hd. destruct Hd as [t Hin]. exists t. simpl. auto.
Qed.

(** ** NaN *)
Definition nan_last (p : stop_on_nan) (acts : list action) (o : outcome) : Prop :=
  forall pre s x post, acts = (pre ++ Write s x :: post)%list -> has_nan p x = true ->
  executed post = [] /\ forall t, o <> Done t.

Lemma nan_last_nil : forall p o, nan_last p [] o.
Proof. intros p o pre s x post H. destruct pre; discriminate. Qed.
Lemma nan_last_other : forall p a l o, (forall s x, a <> Write s x) -> nan_last p l o -> nan_last p (a :: l) o.
Proof.
  intros p a l o NW H pre s x post E. destruct pre as [|b pre].
  - injection E as E _. exfalso. eapply NW; eauto.
  - injection E as -> E. eapply H; eauto.
Qed.
Lemma nan_last_write : forall p n s0 l o,
  (has_nan p s0 = true -> executed l = [] /\ forall t, o <> Done t) -> nan_last p l o ->
  nan_last p (Write n s0 :: l) o.
Proof.
  intros p n s0 l o NW H pre s x post E. destruct pre as [|b pre].
  - inversion E; subst. exact NW.
  - inversion E as [[E1 E2]]. eapply H; eauto.
Qed.

Ltac nan_tac := cbn [fst snd app];
  repeat (first [apply nan_last_nil
               | apply nan_last_other; [intros; discriminate|]
               | apply nan_last_write; [first [intros _; split; [reflexivity|intros; discriminate]
                                              | intros; congruence]|] ]).

Lemma loop_nan : forall c env fuel n st r last,
  nan_last (nan_policy c) (fst (loop c env fuel n st r last)) (snd (loop c env fuel n st r last)).
Proof.
  intros c env. induction fuel as [|fuel IH]; intros n st r last.
  - simpl. nan_tac.
  - cbn [loop]. destruct (split c r) as [r' sub]. destruct (compute c st sub) as [s0 st'].
    unfold do_save.
    destruct (crash (env n)) as [[|hd frag| |k|]|]; try (nan_tac; fail);
    (destruct (has_nan (nan_policy c) s0 || exit_requested (env n)) eqn:AB;
     [destruct (make_archive n st'); nan_tac|];
     apply orb_false_elim in AB; destruct AB as [AB1 AB2];
     destruct (save_step_interval c =? 0)%N; [nan_tac|];
     destruct ((n =? iterations c - 1)%N || _);
     destruct (make_archive n st'); try (nan_tac; fail);
     match goal with |- context [loop c env fuel ?a ?b ?d ?e] =>
           specialize (IH a b d e); destruct (loop c env fuel a b d e) as [bb oo] end;
     nan_tac; exact IH).
Qed.

Lemma has_nan_iff : forall p s, has_nan p s = true <->
  exists key vals v, In (key, vals) s /\ monitored p key = true /\ In v vals /\ re v = None.
Proof.
  intros p s. unfold has_nan. rewrite existsb_exists. split.
  - intros [[k vs] [Hin H]]. apply andb_prop in H. destruct H as [H1 H2]. simpl in *.
    apply existsb_exists in H2. destruct H2 as [v [Hv Hn]]. exists k, vs, v.
    destruct (re v); [discriminate|]. auto.
  - intros [k [vs [v [Hin [Hm [Hv Hn]]]]]]. exists (k, vs). split; auto. simpl. rewrite Hm.
    apply existsb_exists. exists v. rewrite Hn. auto.
Qed.

Lemma loop_done : forall c init env, well_formed c init -> (forall n, crash (env n) = None) ->
  (forall n, exit_requested (env n) = false) -> (forall x, has_nan (nan_policy c) x = false) ->
  forall fuel n st r last, fine init st -> exists t, snd (loop c env fuel n st r last) = Done t.
Proof.
  intros c init env W G X NN. induction fuel as [|fuel IH]; intros n st r last F; [simpl; eauto|].
  cbn [loop]. destruct (split c r) as [r' sub].
  pose proof (wf_compute _ _ W st sub F) as F'.
  destruct (compute c st sub) as [s0 st']. cbn [snd] in F'.
  rewrite G, X, NN. unfold do_save.
  rewrite make_archive_ok by apply F'.
  pose proof (wf_interval _ _ W) as Hi.
  assert (E0: (save_step_interval c =? 0)%N = false) by (apply N.eqb_neq; lia).
  rewrite E0. cbn [orb].
  destruct ((n =? iterations c - 1)%N || _);
    match goal with |- context [loop c env fuel ?a ?b ?d ?e] =>
           destruct (IH a b d e F') as [t Ht]; destruct (loop c env fuel a b d e) as [bb oo] end;
    cbn [fst snd] in *; eauto.
Qed.

(** ** Determinism *)
Fixpoint state_at (c : stage) (k0 : rng c) (st0 : tree) (n : nat) : tree :=
  match n with O => st0 | S n' => snd (compute c (state_at c k0 st0 n') k0) end.

Lemma loop_det : forall c env k0 st0, (forall t r r', compute c t r = compute c t r') ->
  forall fuel n st r last, st = state_at c k0 st0 (N.to_nat n) ->
  (n + N.of_nat fuel = iterations c)%N ->
  (forall s t, In (Save s t) (fst (loop c env fuel n st r last)) -> t = state_at c k0 st0 (N.to_nat (s + 1))) /\
  (forall t, snd (loop c env fuel n st r last) = Done t -> t = state_at c k0 st0 (N.to_nat (iterations c))).
Proof.
  intros c env k0 st0 DET. induction fuel as [|fuel IH]; intros n st r last E L.
  - simpl. split.
    + intros s t [H|[]]. discriminate.
    + intros t H. injection H as <-. rewrite E. f_equal. lia.
  - cbn [loop]. destruct (split c r) as [r' sub].
    assert (E': snd (compute c st sub) = state_at c k0 st0 (N.to_nat (n + 1))).
    { rewrite E. replace (N.to_nat (n + 1)) with (S (N.to_nat n)) by lia. cbn [state_at].
      rewrite (DET _ sub k0). reflexivity. }
    destruct (compute c st sub) as [s0 st']. cbn [snd] in E'.
    unfold do_save.
    destruct (crash (env n)) as [[|hd frag| |k|]|] eqn:CR;
    try (split; [intros s t H; simpl in H; intuition discriminate|simpl; discriminate]);
    (destruct (has_nan (nan_policy c) s0 || exit_requested (env n));
     [|destruct (save_step_interval c =? 0)%N; [|destruct ((n =? iterations c - 1)%N || _)]]);
    destruct (make_archive n st');
    try (match goal with |- context [loop c env fuel ?a ?b ?d ?e] =>
           destruct (IH a b d e E' ltac:(lia)) as [IH1 IH2]; destruct (loop c env fuel a b d e) as [bb oo] end);
    cbn [fst snd app] in *;
    (split; [|try discriminate; auto]);
    intros s t H; simpl in H;
    repeat (destruct H as [H|H]; [try discriminate; inversion H; subst; auto|]);
    try (exfalso; exact H); try (apply IH1; exact H).
Qed.
