(** C11: graceful signal handling, for every interleaving of signals with the
    statements of the handler. *)
From Coq Require Import List Bool Lia.
From Verif Require Import Signal_Model.
Import ListNotations.

(** A signal that arrives while nothing is being handled and whose handler is
    allowed to finish: the signal followed by [n] interpreter steps. *)
Definition undisturbed (s : signo) (n : nat) : list event := Signal s :: repeat Run n.

Lemma init_gives_ready : run before_init (repeat Run 6) = ready.
Proof. reflexivity. Qed.

Lemma run_app st a b : run st (a ++ b) = run (run st a) b.
Proof. apply fold_left_app. Qed.

(** Frames that can be on the stack after construction: suffixes of the handler. *)
Definition suffix_ok (f : list stmt) : Prop := exists p, p ++ f = exit_gracefully.

(** Invariant of every reachable state after construction. *)
Definition inv (st : state) : Prop :=
  kept_int st = true /\ kept_term st = true /\ attribute_error st = false /\
  Forall suffix_ok (frames st) /\
  (h_int st = HKiller \/ h_int st = HOriginal SIGINT) /\
  (h_term st = HKiller \/ h_term st = HOriginal SIGTERM) /\
  (exit_requested st = true -> h_int st = HOriginal SIGINT /\ h_term st = HOriginal SIGTERM) /\
  (* a frame past a restore witnesses it *)
  (forall f, In f (frames st) -> length f <= 2 -> h_int st = HOriginal SIGINT) /\
  (forall f, In f (frames st) -> length f <= 1 -> h_term st = HOriginal SIGTERM) /\
  (forall f, In f (frames st) -> f = [] -> exit_requested st = true) /\
  (delivered st <> [] -> h_int st = HOriginal SIGINT) /\
  (h_int st = HKiller -> h_term st = HKiller).

Lemma suffix_cases f : suffix_ok f ->
  f = [] \/ f = [SSetFlag] \/ f = [SRestore SIGTERM; SSetFlag] \/
  f = [SRestore SIGINT; SRestore SIGTERM; SSetFlag] \/
  f = [SPrint; SRestore SIGINT; SRestore SIGTERM; SSetFlag] \/ f = exit_gracefully.
Proof.
  intros [p H]. unfold exit_gracefully in *.
  destruct p as [|a [|b [|c [|d [|e p]]]]]; simpl in H; try (inversion H; subst; tauto).
  injection H as -> -> -> -> -> H. apply app_eq_nil in H. tauto.
Qed.

Lemma suffix_tl c f : suffix_ok (c :: f) -> suffix_ok f.
Proof. intros [p H]. exists (p ++ [c]). rewrite <- app_assoc. exact H. Qed.

Lemma inv_ready : inv ready.
Proof. unfold inv, ready; simpl. repeat split; auto; try tauto; try discriminate; congruence. Qed.

Ltac fin FL :=
  repeat match goal with |- _ /\ _ => split end;
  try solve [auto | congruence | discriminate
            | let E := fresh in intros E; destruct (FL E); auto
            | let f := fresh "f" in let Hf := fresh in let Hl := fresh in
              intros f [<-|Hf] Hl; [first [discriminate | simpl in Hl; lia | auto]|eauto] ].

Lemma inv_step st e : inv st -> inv (step st e).
Proof.
  intros (K1 & K2 & A & F & HI & HT & FL & L2 & L1 & L0 & D & HK).
  destruct e as [s|]; simpl.
  - destruct (installed st s) eqn:Es.
    + unfold inv; simpl.
      assert (h_int st = HOriginal SIGINT).
      { destruct s; simpl in Es; [destruct HI; congruence|].
        destruct HI as [HI|HI]; auto. rewrite (HK HI) in Es. discriminate. }
      fin FL.
    + assert (N : exit_requested st = false).
      { destruct (exit_requested st) eqn:N; auto. destruct (FL eq_refl) as [a b].
        destruct s; simpl in Es; congruence. }
      unfold inv; simpl. fin FL.
      constructor; auto. exists []; reflexivity.
  - destruct (frames st) as [|[|c rest] fs] eqn:Ef.
    + unfold inv. rewrite Ef. fin FL.
    + unfold inv; simpl. inversion F; subst.
      fin FL; intros f Hf; [apply L2|apply L1|apply L0]; simpl; auto.
    + inversion F as [|? ? Hs Fs]; subst.
      assert (G2 : forall f, In f fs -> length f <= 2 -> h_int st = HOriginal SIGINT) by (intros; eapply L2; simpl; eauto).
      assert (G1 : forall f, In f fs -> length f <= 1 -> h_term st = HOriginal SIGTERM) by (intros; eapply L1; simpl; eauto).
      assert (G0 : forall f, In f fs -> f = [] -> exit_requested st = true) by (intros; eapply L0; simpl; eauto).
      pose proof (suffix_tl _ _ Hs) as Hs'.
      destruct (suffix_cases _ Hs) as [H|[H|[H|[H|[H|H]]]]]; inversion H; subst; simpl.
      * (* SSetFlag *)
        assert (h_int st = HOriginal SIGINT) by (apply (L2 [SSetFlag]); simpl; auto).
        assert (h_term st = HOriginal SIGTERM) by (apply (L1 [SSetFlag]); simpl; auto).
        unfold inv; simpl. fin FL.
      * (* restore TERM *)
        rewrite K2.
        assert (Hi : h_int st = HOriginal SIGINT) by (apply (L2 [SRestore SIGTERM; SSetFlag]); simpl; auto).
        unfold inv; simpl. fin FL.
      * rewrite K1. unfold inv; simpl. fin FL.
      * unfold inv; simpl. fin FL.
      * destruct (exit_requested st) eqn:E.
        -- unfold inv; simpl. rewrite E. fin FL.
        -- unfold inv; simpl. rewrite E. fin FL.
Qed.

Lemma inv_run es st : inv st -> inv (run st es).
Proof. revert st; induction es; simpl; intros; auto. apply IHes, inv_step; auto. Qed.

(** Once the flag is set everything is settled. *)
Lemma settled es st :
  inv st -> exit_requested st = true ->
  exit_requested (run st es) = true /\
  h_int (run st es) = HOriginal SIGINT /\ h_term (run st es) = HOriginal SIGTERM.
Proof.
  revert st; induction es as [|e es IH]; simpl; intros st I E.
  - destruct I as (_ & _ & _ & _ & _ & _ & FL & _). split; auto.
  - apply IH; [apply inv_step; auto|].
    pose proof I as (K1 & K2 & A & F & HI & HT & FL & _).
    destruct e as [s|]; simpl.
    + destruct (installed st s) eqn:Es; auto.
    + destruct (frames st) as [|[|c rest] fs] eqn:Ef; auto.
      inversion F; subst. destruct (suffix_cases _ H1) as [H|[H|[H|[H|[H|H]]]]]; inversion H; subst; simpl; auto.
      * rewrite K2; auto.
      * rewrite K1; auto.
      * rewrite E; auto.
Qed.

Definition signals (es : list event) : list signo :=
  flat_map (fun e => match e with Signal s => [s] | Run => [] end) es.

Lemma settled_delivery es st :
  inv st -> exit_requested st = true ->
  delivered (run st es) = rev (signals es) ++ delivered st.
Proof.
  revert st; induction es as [|e es IH]; intros st I E; auto.
  change (run st (e :: es)) with (run (step st e) es).
  pose proof (settled [e] st I E) as (S & _). change (run st [e]) with (step st e) in S.
  rewrite IH; [|apply inv_step; auto|auto].
  pose proof I as (K1 & K2 & A & F & HI & HT & FL & _). destruct (FL E) as [Ha Hb].
  destruct e as [s|]; simpl signals.
  - replace (delivered (step st (Signal s))) with (s :: delivered st).
    + simpl. rewrite <- app_assoc. reflexivity.
    + destruct s; simpl; rewrite ?Ha, ?Hb; reflexivity.
  - replace (delivered (step st Run)) with (delivered st); auto.
    simpl. destruct (frames st) as [|[|c rest] fs] eqn:Ef; auto.
    inversion F; subst. destruct (suffix_cases _ H1) as [H|[H|[H|[H|[H|H]]]]]; inversion H; subst; simpl; auto;
    rewrite ?K1, ?K2, ?E; auto.
Qed.

(** *** C11, main statement.  Take any history [es] of signals and interpreter
    steps after the killer was built.  As soon as one handler call has run to its
    end ([exit_requested] is true), the exit request stands, both handlers are the
    ones that were there before, and every later signal -- in order, each exactly
    once -- goes to them. *)
Theorem C11_later_signals_reach_the_original_handlers : forall es later,
  exit_requested (run ready es) = true ->
  let st := run (run ready es) later in
  exit_requested st = true /\
  h_int st = HOriginal SIGINT /\ h_term st = HOriginal SIGTERM /\
  delivered st = rev (signals later) ++ delivered (run ready es).
Proof.
  intros es later H st. pose proof (inv_run es ready inv_ready) as I.
  destruct (settled later _ I H) as (a & b & c). repeat split; auto.
  apply settled_delivery; auto.
Qed.

(** The first signal is not seen by the original handler, requests the exit and
    re-installs both handlers (its handler needs 6 interpreter steps, counting the
    return), whatever else is on the stack below it being irrelevant because
    nothing else runs meanwhile. *)
Theorem C11_first_signal_only_requests_exit : forall s n, 6 <= n ->
  let st := run ready (undisturbed s n) in
  exit_requested st = true /\ h_int st = HOriginal SIGINT /\ h_term st = HOriginal SIGTERM /\
  delivered st = [] /\ frames st = [].
Proof.
  intros s n Hn. unfold undisturbed.
  replace n with (6 + (n - 6)) by lia. rewrite repeat_app. generalize (n - 6) as m. intros m.
  change (Signal s :: repeat Run 6 ++ repeat Run m) with ((Signal s :: repeat Run 6) ++ repeat Run m).
  rewrite run_app.
  set (st6 := run ready (Signal s :: repeat Run 6)).
  assert (E : st6 = set_frames (set_flag (set_handler (set_handler ready SIGINT (HOriginal SIGINT)) SIGTERM (HOriginal SIGTERM)) true) []).
  { destruct s; reflexivity. }
  rewrite E. clear. induction m; simpl; auto.
Qed.

(** No exit is requested, and nothing reaches the original handlers, without a signal. *)
Theorem C11_no_exit_without_signal : forall n, run ready (repeat Run n) = ready.
Proof. induction n; simpl; auto. Qed.

(** An exit request is never withdrawn and the handler never fails once the killer
    is built, in any interleaving. *)
Theorem C11_handler_never_fails : forall es, attribute_error (run ready es) = false.
Proof. intros es. pose proof (inv_run es _ inv_ready) as I. unfold inv in I. tauto. Qed.

(** "Any later signal" is too strong when the second signal arrives while the
    first one is still being handled (before line 25 has run): it is absorbed by
    the killer, the original handler never sees it. *)
Theorem C11_second_signal_during_handler_refuted :
  ~ (forall (s1 s2 : signo) (k n : nat),
       n >= 12 ->
       delivered (run ready (Signal s1 :: repeat Run k ++ Signal s2 :: repeat Run n)) = [s2]).
Proof. intros H. specialize (H SIGINT SIGINT 2 12 (le_n _)). discriminate H. Qed.

(** And a signal during the construction of the killer makes the handler fail on
    a missing attribute (lines 12-13 install the handler before keeping the old one). *)
Theorem C11_signal_during_construction_refuted :
  ~ (forall k s n, attribute_error (run before_init (repeat Run k ++ Signal s :: repeat Run n)) = false).
Proof. intros H. specialize (H 2 SIGINT 6). discriminate H. Qed.

(** The hypotheses are met: SIGINT, graceful exit, then a SIGTERM and a SIGINT. *)
Example C11_example :
  let st := run ready (undisturbed SIGINT 6 ++ [Signal SIGTERM; Run; Signal SIGINT]) in
  exit_requested st = true /\ delivered st = [SIGINT; SIGTERM].
Proof. split; reflexivity. Qed.

Print Assumptions C11_later_signals_reach_the_original_handlers.
Print Assumptions C11_first_signal_only_requests_exit.
Print Assumptions C11_handler_never_fails.
