(** C93: several processes run as one. *)
From Coq Require Import List Arith ZArith Bool Lia.
From Verif Require Import Mh_Spec Mh_Model.
Import ListNotations.

(** ** Rendezvous *)
Lemma completes_same : forall A (st : list (list A)), completes st -> forall r r', In r st -> In r' st -> r = r'.
Proof.
  induction 1 as [st E|o st st' F H IH]; intros r r' Hr Hr'.
  - rewrite Forall_forall in E. rewrite (E r Hr), (E r' Hr'). reflexivity.
  - assert (G : forall x, In x st -> exists y, In y st' /\ x = o :: y).
    { clear - F. induction F as [|x y l l' E F IH]; intros z [].
      - subst z. exists y. split; [left; reflexivity|exact E].
      - destruct (IH z H) as (w & I & E'). exists w. split; [right; exact I|exact E']. }
    destruct (G r Hr) as (a & Ia & ->), (G r' Hr') as (b & Ib & ->).
    f_equal. apply IH; assumption.
Qed.
Lemma same_completes : forall A (st : list (list A)), (forall r r', In r st -> In r' st -> r = r') -> completes st.
Proof.
  intros A st H. destruct st as [|r rest]; [apply all_done; constructor|].
  assert (E : r :: rest = repeat r (S (length rest))).
  { simpl. f_equal. assert (G : forall x, In x rest -> x = r) by (intros x I; apply H; [right; exact I|left; reflexivity]).
    clear H. induction rest as [|x l IH]; [reflexivity|]. simpl. rewrite (G x (or_introl eq_refl)) at 1. f_equal. apply IH.
    intros y I. apply G. right; exact I. }
  rewrite E. generalize (S (length rest)) as n. clear.
  induction r as [|o r IH]; intro n.
  - apply all_done. apply Forall_forall. intros x I. apply repeat_spec in I. exact I.
  - apply all_meet with (o := o) (st' := repeat r n); [|apply IH].
    induction n; simpl; constructor; auto.
Qed.

Theorem C93_one_process : forall c nan initial p, completes [ops (run c nan initial p)].
Proof. intros. apply same_completes. intros r r' [<-|[]] [<-|[]]. reflexivity. Qed.

Lemma loop_same : forall c nan p p',
  (forall s, asked p s = asked p' s) ->
  forall left step last last',
  step + left = iterations c ->
  (forall s, step <= s -> s < iterations c - 1 -> (s + 1) mod save_step_interval c = 0 ->
     Z.ltb (save_time_interval c) (now p s - last) = Z.ltb (save_time_interval c) (now p' s - last')) ->
  (forall s s', s < s' -> s' < iterations c - 1 -> (s' + 1) mod save_step_interval c = 0 ->
     Z.ltb (save_time_interval c) (now p s' - now p s) = Z.ltb (save_time_interval c) (now p' s' - now p' s)) ->
  ops (loop c nan p left step last) = ops (loop c nan p' left step last') /\
  ended (loop c nan p left step last) = ended (loop c nan p' left step last') /\
  (is_master p = is_master p' -> files (loop c nan p left step last) = files (loop c nan p' left step last')).
Proof.
  intros c nan p p' HA left. induction left as [|left IH]; intros step last last' Hn H1 H2; [simpl; auto|].
  cbn [loop ops ended files]. rewrite <- (HA step).
  destruct (nan step || asked p step) eqn:En.
  { cbn. repeat split; auto. intros ->; reflexivity. }
  destruct (Nat.eqb step (iterations c - 1)) eqn:El.
  { cbn [orb]. apply Nat.eqb_eq in El. assert (left = 0) by lia. subst left.
    cbn. repeat split; auto. intros ->; reflexivity. }
  apply Nat.eqb_neq in El.
  destruct (Nat.eqb ((step + 1) mod save_step_interval c) 0) eqn:Es.
  - apply Nat.eqb_eq in Es. cbn [orb]. rewrite (H1 step) by lia. rewrite andb_true_r.
    destruct (Z.ltb (save_time_interval c) (now p' step - last')).
    + destruct (IH (step + 1) (now p step) (now p' step)) as (A & B & D); [lia| |exact H2|].
      { intros s L1 L2 L3. apply H2; lia. }
      cbn [saved ops files ended]. rewrite A, B. repeat split; auto. intro E. rewrite E, (D E). reflexivity.
    + destruct (IH (step + 1) last last') as (A & B & D); [lia| |exact H2|].
      { intros s L1 L2 L3. apply H1; lia. }
      rewrite A, B. auto.
  - cbn [orb]. rewrite !andb_false_r.
    destruct (IH (step + 1) last last') as (A & B & D); [lia| |exact H2|].
    { intros s L1 L2 L3. apply H1; lia. }
    rewrite A, B. auto.
Qed.

Definition same_saves (c : config) (p p' : process) : Prop :=
  same_judgement (save_time_interval c) (t0 p) (now p) (t0 p') (now p') \/
  ((save_time_interval c < 0)%Z /\ forward_clock (t0 p) (now p) /\ forward_clock (t0 p') (now p')) \/
  iterations c <= save_step_interval c.

Lemma mod_small_pos : forall s k, s + 1 < k -> (s + 1) mod k = 0 -> False.
Proof. intros s k H E. rewrite Nat.mod_small in E; lia. Qed.

Lemma run_same : forall c nan initial p p', (forall s, asked p s = asked p' s) -> same_saves c p p' ->
  ops (run c nan initial p) = ops (run c nan initial p') /\
  ended (run c nan initial p) = ended (run c nan initial p') /\
  (is_master p = is_master p' -> files (run c nan initial p) = files (run c nan initial p')).
Proof.
  intros c nan initial p p' HA HS. unfold run.
  destruct (Nat.leb_spec (iterations c) initial); [simpl; auto|].
  destruct (loop_same c nan p p' HA (iterations c - initial) initial (t0 p) (t0 p')) as (A & B & D).
  - lia.
  - intros s L1 L2 L3. destruct HS as [[J1 _]|[(N & (F1 & _) & (F2 & _))|K]].
    + apply J1.
    + specialize (F1 s). specialize (F2 s).
      rewrite (proj2 (Z.ltb_lt _ _)) by lia. rewrite (proj2 (Z.ltb_lt _ _)) by lia. reflexivity.
    + exfalso. apply (mod_small_pos s (save_step_interval c)); lia.
  - intros s s' L1 L2 L3. destruct HS as [[_ J2]|[(N & (_ & F1) & (_ & F2))|K]].
    + apply J2; lia.
    + specialize (F1 s s' ltac:(lia)). specialize (F2 s s' ltac:(lia)).
      rewrite (proj2 (Z.ltb_lt _ _)) by lia. rewrite (proj2 (Z.ltb_lt _ _)) by lia. reflexivity.
    + exfalso. apply (mod_small_pos s' (save_step_interval c)); lia.
  - destruct ((initial =? 0) && (0 <? burn_steps c)); cbn [ops files ended]; rewrite ?A, ?B; auto.
Qed.

(** Missing: neither equal exit requests nor equal judgements of the elapsed time are ensured by the
    code; see the two refutations below. *)
Theorem C93_in_step_partial : forall c nan initial ps,
  (forall p p', In p ps -> In p' ps -> (forall s, asked p s = asked p' s) /\
     (same_judgement (save_time_interval c) (t0 p) (now p) (t0 p') (now p') \/
      ((save_time_interval c < 0)%Z /\ forward_clock (t0 p) (now p) /\ forward_clock (t0 p') (now p')) \/
      iterations c <= save_step_interval c)) ->
  completes (map (fun p => ops (run c nan initial p)) ps) /\
  (forall p p', In p ps -> In p' ps -> ended (run c nan initial p) = ended (run c nan initial p')).
Proof.
  intros c nan initial ps H. split.
  - apply same_completes. intros r r' Hr Hr'. apply in_map_iff in Hr, Hr'.
    destruct Hr as (p & <- & I), Hr' as (p' & <- & I'). destruct (H p p' I I'). apply run_same; assumption.
  - intros p p' I I'. destruct (H p p' I I'). apply run_same; assumption.
Qed.

(** ** Only process 0 writes files, and every file holds what all processes gathered *)
Definition gathered (l : list collective) : list nat := flat_map (fun o => match o with Gather s => [s] | _ => [] end) l.
Lemma loop_files : forall c nan p left step last,
  files (loop c nan p left step last) = if is_master p then gathered (ops (loop c nan p left step last)) else [].
Proof.
  intros c nan p left. induction left as [|left IH]; intros step last; [simpl; destruct (is_master p); reflexivity|].
  cbn [loop ops files]. destruct (nan step || asked p step).
  { cbn. destruct (is_master p); reflexivity. }
  match goal with |- context [if ?b then saved _ _ _ else _] => destruct b end.
  - cbn [saved ops files]. unfold gathered in *. cbn [flat_map app]. rewrite IH. destruct (is_master p); reflexivity.
  - unfold gathered in *. cbn [flat_map app]. apply IH.
Qed.
Theorem C93_only_master_saves : forall c nan initial p,
  files (run c nan initial p) = if is_master p then gathered (ops (run c nan initial p)) else [].
Proof.
  intros. unfold run. destruct (iterations c <=? initial); [simpl; destruct (is_master p); reflexivity|].
  destruct ((initial =? 0) && (0 <? burn_steps c)); [unfold gathered; cbn [ops files flat_map app]|]; apply loop_files.
Qed.

(** ** Refutations *)
Lemma loop_prefix : forall c nan p p' s,
  (forall x, nan x = false) -> s < iterations c ->
  forall d step last, step + d = s ->
  (forall x, step <= x -> x < s -> now p x = now p' x /\ asked p x = false /\ asked p' x = false) ->
  exists pre last', (last' = last \/ exists x, step <= x /\ x < s /\ last' = now p x) /\
    ops (loop c nan p (iterations c - step) step last) = pre ++ ops (loop c nan p (iterations c - s) s last') /\
    ops (loop c nan p' (iterations c - step) step last) = pre ++ ops (loop c nan p' (iterations c - s) s last').
Proof.
  intros c nan p p' s Hnan Hs d. induction d as [|d IH]; intros step last Hd Hx.
  { exists [], last. rewrite Nat.add_0_r in Hd. subst step. simpl. auto. }
  destruct (Hx step) as (N & A & A'); [lia|lia|].
  assert (E : iterations c - step = S (iterations c - (step + 1))) by lia. rewrite E.
  cbn [loop ops]. rewrite Hnan, A, A', <- N. cbn [orb].
  rewrite (proj2 (Nat.eqb_neq step (iterations c - 1))) by lia. cbn [orb].
  destruct (Z.ltb (save_time_interval c) (now p step - last) && Nat.eqb ((step + 1) mod save_step_interval c) 0).
  - destruct (IH (step + 1) (now p step)) as (pre & l & L & P1 & P2); [lia|intros; apply Hx; lia|].
    exists (Compute step :: Gather step :: pre), l. split; [|cbn [saved ops app]; rewrite P1, P2; auto].
    right. destruct L as [->|(x & X1 & X2 & X3)]; [exists step|exists x]; repeat split; auto; lia.
  - destruct (IH (step + 1) last) as (pre & l & L & P1 & P2); [lia|intros; apply Hx; lia|].
    exists (Compute step :: pre), l. split; [|cbn [app]; rewrite P1, P2; auto].
    destruct L as [->|(x & X1 & X2 & X3)]; [left; reflexivity|right; exists x; repeat split; auto; lia].
Qed.

Lemma differ : forall c nan initial p p' s,
  (forall x, nan x = false) -> initial <= s -> s < iterations c -> t0 p = t0 p' ->
  (forall x, initial <= x -> x < s -> now p x = now p' x /\ asked p x = false /\ asked p' x = false) ->
  (forall last, (last = t0 p \/ exists x, initial <= x /\ x < s /\ last = now p x) ->
     ops (loop c nan p (iterations c - s) s last) <> ops (loop c nan p' (iterations c - s) s last)) ->
  ~ completes [ops (run c nan initial p); ops (run c nan initial p')].
Proof.
  intros c nan initial p p' s Hn Hi Hs Ht Hx Hd C.
  assert (E : ops (run c nan initial p) = ops (run c nan initial p')).
  { apply (completes_same _ _ C); simpl; auto. }
  unfold run in E. rewrite (proj2 (Nat.leb_gt _ _)) in E by lia.
  destruct (loop_prefix c nan p p' s Hn Hs (s - initial) initial (t0 p)) as (pre & l & L & P1 & P2); [lia|exact Hx|].
  rewrite <- Ht in E. apply (Hd l L).
  assert (E' : ops (loop c nan p (iterations c - initial) initial (t0 p)) = ops (loop c nan p' (iterations c - initial) initial (t0 p))).
  { destruct ((initial =? 0) && (0 <? burn_steps c)); [cbn [ops] in E; congruence|exact E]. }
  rewrite P1, P2 in E'. apply app_inv_head in E'. exact E'.
Qed.

(** The time between saves is judged by every process on its own clock (default 600 s): clocks that
    differ by one tick make one process wait in the gather while the other computes. *)
Theorem C93_clock_refuted : forall c nan initial s,
  (0 <= save_time_interval c)%Z -> (forall x, nan x = false) ->
  initial <= s -> s + 1 < iterations c -> (s + 1) mod save_step_interval c = 0 ->
  exists p p', is_master p = true /\ is_master p' = false /\
    forward_clock (t0 p) (now p) /\ forward_clock (t0 p') (now p') /\
    one_tick_apart (t0 p) (now p) (t0 p') (now p') /\
    (forall x, asked p x = false /\ asked p' x = false) /\
    ~ completes [ops (run c nan initial p); ops (run c nan initial p')].
Proof.
  intros c nan initial s HI Hn Hi Hs Hk.
  pose (clock v := fun x => if x <? s then 0%Z else v).
  assert (FW : forall v, (0 <= v)%Z -> forward_clock 0 (clock v)).
  { intros v Hv. unfold clock. split.
    - intro x. destruct (x <? s); lia.
    - intros x y L. destruct (Nat.ltb_spec x s), (Nat.ltb_spec y s); lia. }
  exists {| t0 := 0; now := clock (save_time_interval c); asked := fun _ => false; is_master := true |},
         {| t0 := 0; now := clock (save_time_interval c + 1)%Z; asked := fun _ => false; is_master := false |}.
  cbn [t0 now asked is_master]. split; [reflexivity|]. split; [reflexivity|].
  split; [apply FW; lia|]. split; [apply FW; lia|]. split.
  { split; [reflexivity|]. intro x. unfold clock. destruct (x <? s); lia. }
  split; [auto|].
  apply (differ c nan initial _ _ s); cbn [t0 now asked]; auto; [lia| |].
  - intros x L1 L2. unfold clock. rewrite (proj2 (Nat.ltb_lt _ _)) by lia. auto.
  - intros last L.
    assert (last = 0)%Z as ->.
    { destruct L as [->|(x & _ & X & ->)]; [reflexivity|]. unfold clock. rewrite (proj2 (Nat.ltb_lt _ _)) by lia. reflexivity. }
    assert (E : iterations c - s = S (S (iterations c - (s + 2)))) by lia. rewrite E.
    set (m := iterations c - (s + 2)). cbn [loop ops now asked].
    rewrite !Hn. cbn [orb]. rewrite (proj2 (Nat.eqb_neq s (iterations c - 1))) by lia.
    rewrite (proj2 (Nat.eqb_eq _ 0) Hk). cbn [orb]. rewrite !andb_true_r.
    unfold clock at 1. rewrite Nat.ltb_irrefl.
    rewrite (proj2 (Z.ltb_ge _ _)) by lia.
    replace (Z.ltb (save_time_interval c) (clock (save_time_interval c + 1)%Z s - 0)) with true
      by (unfold clock; rewrite Nat.ltb_irrefl; symmetry; apply Z.ltb_lt; lia).
    cbn [saved ops]. intro X. discriminate X.
Qed.

(** A signal is noticed by every process on its own: if one process sees the request a step before
    another, the first gathers and exits while the other starts the next step. *)
Theorem C93_signal_refuted : forall c nan initial s,
  (forall x, nan x = false) -> initial <= s -> s + 1 < iterations c ->
  exists p p', is_master p = true /\ is_master p' = false /\
    forward_clock (t0 p) (now p) /\ t0 p = t0 p' /\ (forall x, now p x = now p' x) /\
    (forall x, asked p x = (s <=? x)) /\ (forall x, asked p' x = (s + 1 <=? x)) /\
    ~ completes [ops (run c nan initial p); ops (run c nan initial p')].
Proof.
  intros c nan initial s Hn Hi Hs.
  exists {| t0 := 0; now := fun _ => 0%Z; asked := fun x => s <=? x; is_master := true |},
         {| t0 := 0; now := fun _ => 0%Z; asked := fun x => s + 1 <=? x; is_master := false |}.
  cbn [t0 now asked is_master]. split; [reflexivity|]. split; [reflexivity|].
  split; [split; intros; lia|]. split; [reflexivity|]. split; [reflexivity|]. split; [reflexivity|]. split; [reflexivity|].
  apply (differ c nan initial _ _ s); cbn [t0 now asked]; auto; [lia| |].
  - intros x L1 L2. rewrite !(proj2 (Nat.leb_gt _ _)) by lia. auto.
  - intros last _.
    assert (E : iterations c - s = S (S (iterations c - (s + 2)))) by lia. rewrite E.
    set (m := iterations c - (s + 2)). cbn [loop ops now asked].
    rewrite !Hn. rewrite (proj2 (Nat.leb_le s s)) by lia. rewrite (proj2 (Nat.leb_gt (s + 1) s)) by lia. cbn [orb].
    match goal with |- context [if ?b then saved _ _ ?q else _] => destruct b; cbn [saved ops]; intro X; discriminate X end.
Qed.
