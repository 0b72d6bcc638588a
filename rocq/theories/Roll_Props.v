(** C46: rollbacks, restarts and promotions of DMC data. *)
From Coq Require Import List Arith Bool Lia.
From Verif Require Import Roll_Model Roll_Spec.
Import ListNotations.

Section Props.
Variables (S : Type) (init : S) (iter : nat -> S -> S -> Prop) (rejected : S -> S -> Prop).
Local Notation trace := (trace S init iter rejected).
Local Notation genuine := (genuine S init iter rejected).
Local Notation genuine_file := (genuine_file S init iter rejected).
Local Notation attempts := (attempts S rejected).
Local Notation on_grid := (on_grid S).
Local Notation run_from := (run_from S init iter rejected).
Local Notation reachable := (reachable S init iter rejected).
Lemma trace_length r s n : trace r s n -> length r = n.
Proof. induction 1 as [|r s n s1 s' H IH A I]; [reflexivity|]. rewrite app_length, IH. reflexivity. Qed.
Lemma trace_steps r s n : trace r s n -> map fst r = seq 0 n.
Proof. induction 1 as [|r s n s1 s' H IH A I]; [reflexivity|]. rewrite map_app, IH, Nat.add_1_r, seq_S. reflexivity. Qed.
Lemma attempts_snoc s s1 s2 : attempts s s1 -> rejected s1 s2 -> attempts s s2.
Proof. induction 1 as [s|s a b R A IH]; intros H; [econstructor; [exact H|constructor]|econstructor; [exact R|auto]]. Qed.

Record sound (m : mgr S) : Prop := {
  s_trace : exists s0, trace (rows m) s0 (t m) /\ attempts s0 (cur m);
  s_ws : forall k d, ws m k = Some d -> d_step d = k /\ genuine d /\ k < t m /\ d_rows d = firstn (k + 1) (rows m);
  s_only : forall k d, ws m k = Some d -> unsafe_step m = Some k \/ safe_step m = Some k;
  s_unsafe : forall u, unsafe_step m = Some u -> exists d, ws m u = Some d;
  s_safe : forall u, safe_step m = Some u -> exists d, ws m u = Some d;
  s_order : forall u v, unsafe_step m = Some u -> safe_step m = Some v -> v < u }.
Definition stored (w : world S) : Prop := forall m k d, proc w = Some m -> safe_step m = Some k -> ws m k = Some d -> In (Good d) (saved w).
Definition multiples (bs : nat) (m : mgr S) : Prop := forall u, unsafe_step m = Some u -> u mod bs = 0.
Definition inv (bs : nat) (w : world S) : Prop := Forall genuine_file (saved w ++ restore w) /\ (forall m, proc w = Some m -> sound m /\ multiples bs m) /\ stored w.

Lemma put_In f g dir : In g (put_file S f dir) -> g = f \/ In g dir.
Proof. unfold put_file. intros H. apply in_app_or in H as [H|[H|[]]]; [right; apply filter_In in H; tauto|left; auto]. Qed.
Lemma put_keeps f g dir : In g dir -> index g <> index f -> In g (put_file S f dir).
Proof. intros H N. unfold put_file. apply in_or_app. left. apply filter_In. split; [auto|]. destruct (Nat.eqb_spec (index g) (index f)); [contradiction|reflexivity]. Qed.
Lemma put_new f dir : In f (put_file S f dir). Proof. unfold put_file. apply in_or_app. right. left. auto. Qed.
Lemma put_genuine f dir rest : Forall genuine_file (dir ++ rest) -> genuine_file f -> Forall genuine_file (put_file S f dir ++ rest).
Proof.
  rewrite !Forall_forall. intros H G x I. apply in_app_or in I as [I|I]; [apply put_In in I as [->|I]; [auto|]|]; apply H; apply in_or_app; auto.
Qed.
Lemma set_same w k v : set_ws S w k v k = v. Proof. unfold set_ws. rewrite Nat.eqb_refl. reflexivity. Qed.
Lemma set_other w k v j : j <> k -> set_ws S w k v j = w j. Proof. intros H. unfold set_ws. destruct (Nat.eqb_spec j k); [contradiction|reflexivity]. Qed.

(** what one successful step does *)
Definition next_state (m : mgr S) s' w u v : mgr S := {| t := t m + 1; cur := s'; rows := rows m ++ [(t m, s')]; ws := w; unsafe_step := u; safe_step := v |}.
Definition fresh_data (m : mgr S) s' : data S := {| d_step := t m; d_state := s'; d_rows := rows m ++ [(t m, s')] |}.
Lemma run_cases bs up dir m s' : sound m ->
  (t m mod bs <> 0 /\ run S bs up dir m s' = (next_state m s' (ws m) (unsafe_step m) (safe_step m), dir)) \/
  (t m mod bs = 0 /\ unsafe_step m = None /\ run S bs up dir m s' = (next_state m s' (set_ws S (ws m) (t m) (Some (fresh_data m s'))) (Some (t m)) (safe_step m), dir)) \/
  (t m mod bs = 0 /\ exists u d, unsafe_step m = Some u /\ ws m u = Some d /\ u < t m /\
     run S bs up dir m s' = (next_state m s' (match safe_step m with Some k => set_ws S (set_ws S (ws m) (t m) (Some (fresh_data m s'))) k None | None => set_ws S (ws m) (t m) (Some (fresh_data m s')) end) (Some (t m)) (Some u), put_file S (up d) dir)).
Proof.
  intros SO. unfold run. destruct (Nat.eqb_spec (t m mod bs) 0) as [Z|Z]; [|left; auto]. right. unfold data_at. destruct (unsafe_step m) as [u|] eqn:U; [|left; auto].
  right. split; [auto|]. destruct (s_unsafe m SO u U) as [d D]. exists u, d. destruct (s_ws m SO u d D) as [DS [_ [LT _]]]. rewrite D. cbv zeta. rewrite set_other by lia. rewrite D. auto.
Qed.
Lemma firstn_app_le {T} k (l l' : list T) : k <= length l -> firstn k (l ++ l') = firstn k l.
Proof. intros H. rewrite firstn_app. replace (k - length l) with 0 by lia. cbn. apply app_nil_r. Qed.
Lemma run_sound bs up dir m s' : sound m -> multiples bs m -> iter (t m) (cur m) s' -> sound (fst (run S bs up dir m s')) /\ multiples bs (fst (run S bs up dir m s')).
Proof.
  intros SO MU IT. destruct (s_trace m SO) as [s0 [TR AT]]. pose proof (trace_length _ _ _ TR) as LR.
  assert (TR' : trace (rows m ++ [(t m, s')]) s' (t m + 1)) by (eapply Next; eauto).
  assert (OLD : forall k d, ws m k = Some d -> d_step d = k /\ genuine d /\ k < t m + 1 /\ d_rows d = firstn (k + 1) (rows m ++ [(t m, s')])).
  { intros k d H. destruct (s_ws m SO k d H) as [A [B [C D]]]. split; [auto|]. split; [auto|]. split; [lia|]. rewrite firstn_app_le by lia. exact D. }
  assert (NEW : forall k d, k = t m -> Some (fresh_data m s') = Some d -> d_step d = k /\ genuine d /\ k < t m + 1 /\ d_rows d = firstn (k + 1) (rows m ++ [(t m, s')])).
  { intros k d -> E. injection E as <-. cbn. split; [auto|]. split; [exact TR'|]. split; [lia|]. rewrite firstn_all2; [reflexivity|rewrite app_length; cbn; lia]. }
  destruct (run_cases bs up dir m s' SO) as [[Z ->]|[[Z [U ->]]|[Z [u [d [U [D [LT ->]]]]]]]]; cbn [fst]; split.
  - split; unfold next_state; cbn; [exists s'; split; [exact TR'|constructor]|exact OLD|apply (s_only m SO)|apply (s_unsafe m SO)|apply (s_safe m SO)|apply (s_order m SO)].
  - exact MU.
  - split; unfold next_state; cbn.
    + exists s'. split; [exact TR'|constructor].
    + intros k d H. destruct (Nat.eq_dec k (t m)) as [->|N]; [rewrite set_same in H; auto|rewrite set_other in H by auto; auto].
    + intros k d H. destruct (Nat.eq_dec k (t m)) as [->|N]; [left; auto|rewrite set_other in H by auto]. destruct (s_only m SO k d H) as [E|E]; [congruence|right; auto].
    + intros x H. injection H as <-. eexists. apply set_same.
    + intros x H. destruct (s_safe m SO x H) as [d D]. destruct (Nat.eq_dec x (t m)) as [->|N]; [eexists; apply set_same|exists d; rewrite set_other by auto; exact D].
    + intros x v H1 H2. injection H1 as <-. destruct (s_safe m SO v H2) as [d D]. destruct (s_ws m SO v d D) as [_ [_ [L _]]]. exact L.
  - intros x H. unfold next_state in H. cbn in H. injection H as <-. exact Z.
  - assert (HS : forall k, safe_step m = Some k -> k <> u /\ k <> t m).
    { intros k K. pose proof (s_order m SO u k U K). lia. }
    split; unfold next_state; cbn.
    + exists s'. split; [exact TR'|constructor].
    + intros k dd H. destruct (safe_step m) as [v|] eqn:V.
      * destruct (Nat.eq_dec k v) as [->|NV]; [rewrite set_same in H; discriminate|rewrite set_other in H by auto].
        destruct (Nat.eq_dec k (t m)) as [->|N]; [rewrite set_same in H; auto|rewrite set_other in H by auto; auto].
      * destruct (Nat.eq_dec k (t m)) as [->|N]; [rewrite set_same in H; auto|rewrite set_other in H by auto; auto].
    + intros k dd H. destruct (Nat.eq_dec k (t m)) as [->|N]; [left; auto|]. right.
      assert (W : ws m k = Some dd) by (destruct (safe_step m) as [v|]; [destruct (Nat.eq_dec k v) as [->|NV]; [rewrite set_same in H; discriminate|rewrite !set_other in H by auto; auto]|rewrite set_other in H by auto; auto]).
      destruct (s_only m SO k dd W) as [E|E]; [congruence|]. rewrite E in H. rewrite set_same in H. discriminate.
    + intros x H. injection H as <-. destruct (safe_step m) as [v|] eqn:V; [destruct (HS v eq_refl); rewrite set_other by auto|]; eexists; apply set_same.
    + intros x H. injection H as <-. exists d. destruct (safe_step m) as [v|] eqn:V; [destruct (HS v eq_refl); rewrite set_other by auto|]; rewrite set_other by lia; exact D.
    + intros x v H1 H2. injection H1 as <-. injection H2 as <-. exact LT.
  - intros x H. unfold next_state in H. cbn in H. injection H as <-. exact Z.
Qed.
Lemma rollback_sound bs m m' : sound m -> rollback S m = Some m' -> sound m' /\ multiples bs m' /\ exists k d, safe_step m = Some k /\ safe_step m' = Some k /\ ws m k = Some d /\ ws m' k = Some d /\
  t m' = k + 1 /\ cur m' = d_state d /\ rows m' = d_rows d /\ unsafe_step m' = None /\ k < t m.
Proof.
  intros SO H. unfold rollback, data_at in H. destruct (safe_step m) as [k|] eqn:K; [|discriminate]. destruct (ws m k) as [d|] eqn:D; [|discriminate]. injection H as <-.
  destruct (s_ws m SO k d D) as [DS [G [LT R]]]. cbn.
  assert (KEEP : match unsafe_step m with Some k0 => set_ws S (ws m) k0 None | None => ws m end k = Some d).
  { destruct (unsafe_step m) as [u|] eqn:U; [|exact D]. pose proof (s_order m SO u k U K). rewrite set_other by lia. exact D. }
  assert (SUB : forall j e, match unsafe_step m with Some k0 => set_ws S (ws m) k0 None | None => ws m end j = Some e -> j = k /\ e = d).
  { intros j e H. assert (W : ws m j = Some e /\ unsafe_step m <> Some j).
    { destruct (unsafe_step m) as [u|] eqn:U; [|split; [exact H|discriminate]]. destruct (Nat.eq_dec j u) as [->|N]; [rewrite set_same in H; discriminate|rewrite set_other in H by auto; split; [auto|congruence]]. }
    destruct W as [W1 W2]. destruct (s_only m SO j e W1) as [E|E]; [contradiction|]. assert (j = k) by congruence. subst j. split; congruence. }
  split; [|split].
  - split; cbn.
    + exists (d_state d). split; [exact G|constructor].
    + intros j e H. apply SUB in H as [-> ->]. split; [auto|]. split; [auto|]. split; [rewrite DS; lia|]. rewrite firstn_all2; [reflexivity|]. rewrite (trace_length _ _ _ G). lia.
    + intros j e H. apply SUB in H as [-> ->]. right. auto.
    + discriminate.
    + intros j H. exists d. replace j with k by congruence. exact KEEP.
    + discriminate.
  - intros u H. cbn in H. discriminate.
  - exists k, d. rewrite DS. auto 12 using KEEP.
Qed.
Lemma find_latest_In : forall dir best f, find_latest S dir best = Some f -> In f dir \/ best = Some f.
Proof.
  induction dir as [|g dir IH]; intros best f H; cbn [find_latest] in H; [auto|]. apply IH in H as [H|H]; [left; right; auto|]. destruct best as [b|]; [|left; left; congruence]. destruct (Nat.ltb (index b) (index g)) eqn:Q; [left; left; injection H; auto|auto].
Qed.
Lemma find_latest_max : forall dir best f, find_latest S dir best = Some f -> (forall g, In g dir -> index g <= index f) /\ (forall b, best = Some b -> index b <= index f).
Proof.
  induction dir as [|g dir IH]; intros best f H; cbn [find_latest] in H; [split; [intros x []|intros b E; rewrite H in E; injection E as ->; auto]|].
  destruct (IH _ _ H) as [A B]. split.
  - intros x [<-|I]; [|auto]. destruct best as [b|]; [|apply B; auto]. destruct (Nat.ltb_spec (index b) (index g)); [apply B; auto|]. specialize (B b eq_refl). lia.
  - intros b ->. destruct (Nat.ltb_spec (index b) (index g)); [specialize (B g eq_refl); lia|apply B; auto].
Qed.
Lemma find_latest_some : forall dir g, find_latest S dir (Some g) <> None.
Proof. induction dir as [|x dir IH]; intros g; cbn [find_latest]; [discriminate|]. destruct (Nat.ltb (index g) (index x)); apply IH. Qed.
Lemma find_latest_none dir : find_latest S dir None = None <-> dir = [].
Proof. split; [|intros ->; reflexivity]. destruct dir as [|f dir]; [auto|]. cbn [find_latest]. intros E. destruct (find_latest_some _ _ E). Qed.
Lemma start_sound bs dir m : Forall genuine_file dir -> start S init dir = Some m -> sound m /\ multiples bs m /\ unsafe_step m = None /\ safe_step m = None /\
  ((dir = [] /\ t m = 0 /\ cur m = init /\ rows m = []) \/ exists d, In (Good d) dir /\ (forall f, In f dir -> index f <= d_step d) /\ t m = d_step d + 1 /\ cur m = d_state d /\ rows m = d_rows d).
Proof.
  intros G H. unfold start in H. destruct (find_latest S dir None) as [[d|k]|] eqn:F; [|discriminate|].
  - injection H as <-. apply find_latest_In in F as I. destruct I as [I|]; [|discriminate]. apply find_latest_max in F as [M _].
    pose proof (proj1 (Forall_forall _ _) G _ I) as GD. cbn in GD.
    split; [split; cbn; try discriminate; exists (d_state d); split; [exact GD|constructor]|]. split; [intros u U; discriminate|]. split; [auto|]. split; [auto|]. right. exists d. auto.
  - injection H as <-. apply find_latest_none in F. split; [split; cbn; try discriminate; exists init; split; constructor|]. split; [intros u U; discriminate|]. auto 8.
Qed.
Theorem inv_reachable bs w : reachable bs w -> inv bs w.
Proof.
  induction 1 as [w PN G|w w' R IH EV].
  - split; [exact G|]. split; [intros m E; congruence|intros m k d E; congruence].
  - destruct IH as [G [SO ST]]. destruct EV as [w m s' P IT|w m s1 P RJ|w m m' P RB|w m P|w m P|w m s' P IT|w m P SA].
    + destruct (SO m P) as [SM MM]. pose proof (run_sound bs Good (saved w) m s' SM MM IT) as RS.
      destruct (run_cases bs Good (saved w) m s' SM) as [[Z E]|[[Z [U E]]|[Z [u [d [U [D [LT E]]]]]]]]; rewrite E in *; cbn [fst snd] in *.
      * split; [exact G|]. split; [intros x X; injection X as <-; exact RS|]. intros x k dd X K W. cbn in *. injection X as <-. cbn in *. eapply ST; eauto.
      * split; [exact G|]. split; [intros x X; injection X as <-; exact RS|]. intros x k dd X K W. cbn in *. injection X as <-. cbn in *.
        destruct (s_safe m SM k K) as [d0 D0]. destruct (s_ws m SM k d0 D0) as [_ [_ [L _]]]. rewrite set_other in W by lia. eapply ST; eauto.
      * destruct (s_ws m SM u d D) as [DS [GD _]]. split; [apply put_genuine; [exact G|exact GD]|]. split; [intros x X; injection X as <-; exact RS|].
        intros x k dd X K W. cbn in *. injection X as <-. cbn in *. injection K as <-.
        assert (Q : ws m u = Some dd). { destruct (safe_step m) as [v|] eqn:V; [pose proof (s_order m SM u v U V); rewrite set_other in W by lia|]; rewrite set_other in W by lia; exact W. }
        replace dd with d by congruence. apply put_new.
    + destruct (SO m P) as [SM MM]. split; [exact G|]. split.
      * intros x X. injection X as <-. split; [|exact MM]. destruct SM as [[s0 [TR AT]] B C D E F]. split; cbn; auto. exists s0. split; [exact TR|eapply attempts_snoc; eauto].
      * intros x k d X K W. cbn in *. injection X as <-. cbn in *. eapply ST; eauto.
    + destruct (SO m P) as [SM MM]. destruct (rollback_sound bs m m' SM RB) as [A [B [k [d [K [K' [W [W' Q]]]]]]]]. split; [exact G|]. split; [intros x X; injection X as <-; auto|].
      intros x k2 d2 X E2 W2. cbn in *. injection X as <-. assert (k2 = k) by congruence. subst k2. assert (d2 = d) by congruence. subst d2. eapply ST; eauto.
    + destruct (SO m P) as [SM MM]. unfold leave, data_at. split; [|split; [intros x X; discriminate|intros x k d X; discriminate]]. cbn.
      destruct (safe_step m) as [k|] eqn:K; [|exact G]. destruct (ws m k) as [d|] eqn:D; [|exact G]. apply put_genuine; [exact G|]. destruct (s_ws m SM k d D) as [_ [GD _]]. exact GD.
    + split; [exact G|]. split; [intros x X; discriminate|intros x k d X; discriminate].
    + destruct (SO m P) as [SM MM]. split; [|split; [intros x X; discriminate|intros x k d X; discriminate]]. cbn.
      destruct (run_cases bs (fun d => Torn (d_step d)) (saved w) m s' SM) as [[Z ->]|[[Z [U ->]]|[Z [u [d [U [D [LT ->]]]]]]]]; cbn [snd]; try exact G. apply put_genuine; [exact G|exact Logic.I].
    + destruct (start_sound bs _ m G SA) as [A [B [C [D _]]]]. split; [exact G|]. split; [intros x X; injection X as <-; auto|]. intros x k d X K. cbn in *. injection X as <-. congruence.
Qed.

Lemma gap bs a b : 0 < bs -> a mod bs = 0 -> b mod bs = 0 -> a < b -> a + bs <= b.
Proof.
  intros B HA HB L. pose proof (Nat.div_mod a bs ltac:(lia)) as A. pose proof (Nat.div_mod b bs ltac:(lia)) as C. rewrite HA in A. rewrite HB in C.
  rewrite Nat.add_0_r in A, C. rewrite A, C in *. set (x := a / bs) in *. set (y := b / bs) in *. clearbody x y. assert (x < y) by nia. assert (x + 1 <= y) by lia. nia.
Qed.
(** ** Theorems *)
(** The metric file always lists every step once, in order, up to the current step. *)
Theorem C46_metric : forall bs w m, reachable bs w -> proc w = Some m -> map fst (rows m) = seq 0 (t m).
Proof. intros bs w m R P. destruct (inv_reachable bs w R) as [_ [SO _]]. destruct (SO m P) as [SM _]. destruct (s_trace m SM) as [s0 [TR _]]. apply (trace_steps _ _ _ TR). Qed.
(** Whatever failed before, the rows and the state are those of an execution without failures. *)
Theorem C46_trace : forall bs w m, reachable bs w -> proc w = Some m -> exists s0, trace (rows m) s0 (t m) /\ attempts s0 (cur m).
Proof. intros bs w m R P. destruct (inv_reachable bs w R) as [_ [SO _]]. destruct (SO m P) as [SM _]. apply (s_trace m SM). Qed.
(** Every intact file in the save path is the checkpoint and metric file of such an execution. *)
Theorem C46_files : forall bs w d, reachable bs w -> In (Good d) (saved w) -> trace (d_rows d) (d_state d) (d_step d + 1) /\ map fst (d_rows d) = seq 0 (d_step d + 1).
Proof.
  intros bs w d R I. destruct (inv_reachable bs w R) as [G _]. rewrite Forall_forall in G. specialize (G (Good d) (in_or_app _ _ _ (or_introl I))). cbn in G. split; [exact G|apply (trace_steps _ _ _ G)].
Qed.
(** A rollback returns to a step of the same execution: the state and metric rows are those saved
    at that step, the file is in the save path, and work continues at the next step. *)
Theorem C46_rollback : forall bs w m m', reachable bs w -> proc w = Some m -> rollback S m = Some m' ->
  exists d, In (Good d) (saved w) /\ cur m' = d_state d /\ rows m' = d_rows d /\ t m' = d_step d + 1 /\ t m' <= t m /\ rows m' = firstn (t m') (rows m).
Proof.
  intros bs w m m' R P RB. destruct (inv_reachable bs w R) as [_ [SO ST]]. destruct (SO m P) as [SM _].
  destruct (rollback_sound bs m m' SM RB) as [_ [_ [k [d [K [_ [W [_ [T [C [RR [_ L]]]]]]]]]]]]. destruct (s_ws m SM k d W) as [DS [_ [_ F]]].
  exists d. split; [eapply ST; eauto|]. split; [auto|]. split; [auto|]. split; [lia|]. split; [lia|]. rewrite RR, T. exact F.
Qed.
(** Data enters the save path only when it is at least one block old. *)
Theorem C46_promoted : forall bs w m s' f, 0 < bs -> reachable bs w -> proc w = Some m -> In f (snd (run S bs Good (saved w) m s')) -> ~ In f (saved w) -> index f + bs <= t m.
Proof.
  intros bs w m s' f B R P I N. destruct (inv_reachable bs w R) as [_ [SO _]]. destruct (SO m P) as [SM MM].
  destruct (run_cases bs Good (saved w) m s' SM) as [[Z E]|[[Z [U E]]|[Z [u [d [U [D [LT E]]]]]]]]; rewrite E in I; cbn [snd] in I; try contradiction.
  apply put_In in I as [->|I]; [|contradiction]. cbn. destruct (s_ws m SM u d D) as [-> _]. specialize (MM u U).
  apply (gap bs); auto.
Qed.
(** A new process continues from the newest file of both paths, at the step after it. *)
Theorem C46_restart : forall bs w m, reachable bs w -> proc w = None -> start S init (saved w ++ restore w) = Some m ->
  (saved w ++ restore w = [] /\ t m = 0 /\ cur m = init /\ rows m = []) \/
  exists d, In (Good d) (saved w ++ restore w) /\ (forall f, In f (saved w ++ restore w) -> index f <= d_step d) /\ t m = d_step d + 1 /\ cur m = d_state d /\ rows m = d_rows d.
Proof. intros bs w m R P SA. destruct (inv_reachable bs w R) as [G _]. apply (start_sound bs _ m G SA). Qed.

(** ** Nothing is lost: the newest data of the run reaches the save path *)
Definition cover (bs : nat) (w : world S) (m : mgr S) : Prop :=
  match unsafe_step m with
  | Some u => u < t m <= u + bs /\ (u = 0 \/ exists d, In (Good d) (saved w ++ restore w) /\ d_step d + bs = u)
  | None => t m = 0 \/ exists d, In (Good d) (saved w ++ restore w) /\ d_step d < t m <= d_step d + bs
  end.
Lemma run_from_reachable bs w : run_from bs w -> reachable bs w.
Proof. induction 1; [apply At_first; auto|eapply After; eauto]. Qed.
Lemma cover_run bs w : 0 < bs -> run_from bs w -> on_grid bs w /\ forall m, proc w = Some m -> cover bs w m.
Proof.
  intros B. induction 1 as [w P G OG|w w' R [OG IH] EV]; [split; [auto|intros m E; congruence]|].
  pose proof (run_from_reachable bs w R) as RE. destruct (inv_reachable bs w RE) as [G [SO ST]].
  assert (PG : forall f, index f mod bs = 0 -> on_grid bs {| saved := put_file S f (saved w); restore := restore w; proc := None |}).
  { intros f Z g I. cbn in I. apply in_app_or in I as [I|I]; [apply put_In in I as [->|I]; [auto|]|]; apply OG; apply in_or_app; auto. }
  destruct EV as [w m s' P IT|w m s1 P RJ|w m m' P RB|w m P|w m P|w m s' P IT|w m P SA].
  - destruct (SO m P) as [SM MM]. specialize (IH m P). unfold cover in IH.
    assert (MUL : forall a b, a mod bs = 0 -> b mod bs = 0 -> a < b -> b <= a + bs -> b = a + bs).
    { intros a b HA HB L1 L2. pose proof (gap bs a b B HA HB L1). lia. }
    assert (NOT : forall a b, a mod bs = 0 -> b mod bs <> 0 -> a < b -> b <= a + bs -> b + 1 <= a + bs).
    { intros a b HA HB L1 L2. destruct (Nat.eq_dec b (a + bs)) as [->|]; [|lia]. exfalso. apply HB. replace (a + bs) with (a + 1 * bs) by lia. rewrite Nat.mod_add by lia. exact HA. }
    destruct (run_cases bs Good (saved w) m s' SM) as [[Z E]|[[Z [U E]]|[Z [u [d [U [D [LT E]]]]]]]]; rewrite E; cbn [fst snd].
    + split; [exact OG|]. intros x X. injection X as <-. unfold cover. cbn. destruct (unsafe_step m) as [u|] eqn:U.
      * destruct IH as [[L1 L2] F]. split; [split; [lia|]; apply NOT; auto; lia|exact F].
      * destruct IH as [T0|[f [I [L1 L2]]]]; [rewrite T0 in Z; destruct Z; apply Nat.mod_0_l; lia|]. right. exists f. split; [exact I|]. split; [lia|]. apply NOT; auto; try lia; exact (OG (Good f) I).
    + split; [exact OG|]. intros x X. injection X as <-. unfold cover. cbn. rewrite U in IH. split; [lia|]. destruct IH as [T0|[f [I [L1 L2]]]]; [auto|]. right. exists f. split; [exact I|]. symmetry. apply MUL; auto; exact (OG (Good f) I).
    + destruct (s_ws m SM u d D) as [DS _]. assert (UM : u mod bs = 0) by (apply MM; auto). rewrite U in IH. destruct IH as [[L1 L2] F].
      split; [intros g I; apply (PG (Good d)) in I; [exact I|cbn; rewrite DS; exact UM]|]. intros x X. injection X as <-. unfold cover. cbn. split; [lia|]. right. exists d. split; [apply in_or_app; left; apply put_new|]. cbn. rewrite DS. symmetry. apply MUL; auto; lia.
  - split; [exact OG|]. intros x X. injection X as <-. exact (IH m P).
  - destruct (SO m P) as [SM MM]. split; [exact OG|]. intros x X. injection X as <-. destruct (rollback_sound bs m m' SM RB) as [_ [_ [k [d [K [_ [W [_ [T [_ [_ [U _]]]]]]]]]]]].
    unfold cover. cbn. rewrite U. right. exists d. split; [apply in_or_app; left; eapply ST; eauto|]. destruct (s_ws m SM k d W) as [DS _]. cbn. lia.
  - destruct (SO m P) as [SM MM]. split; [|intros x X; discriminate]. unfold leave, data_at. cbn. destruct (safe_step m) as [k|] eqn:K; [|exact OG]. destruct (ws m k) as [d|] eqn:D; [|exact OG].
    apply (PG (Good d)). apply (OG (Good d)). apply in_or_app. left. eapply ST; eauto.
  - split; [exact OG|]. intros x X. discriminate.
  - destruct (SO m P) as [SM MM]. split; [|intros x X; discriminate].
    destruct (run_cases bs (fun d => Torn (d_step d)) (saved w) m s' SM) as [[Z E]|[[Z [U E]]|[Z [u [d [U [D [LT E]]]]]]]]; rewrite E; cbn [fst snd]; try exact OG.
    apply (PG (Torn (d_step d))). cbn. destruct (s_ws m SM u d D) as [-> _]. apply MM. auto.
  - split; [exact OG|]. intros x X. injection X as <-. destruct (start_sound bs _ m G SA) as [_ [_ [U [_ Q]]]]. unfold cover. cbn. rewrite U. destruct Q as [[_ [T _]]|[d [I [_ [T _]]]]]; [auto|]. right. exists d. split; [exact I|]. cbn. lia.
Qed.
(** When the loop of [num_steps] steps ends, the last block boundary within them is saved. *)
Theorem C46_final : forall bs w m num_steps, 0 < bs -> run_from bs w -> proc w = Some m -> t m = num_steps + bs + 1 ->
  exists d, In (Good d) (saved w ++ restore w) /\ bs * (num_steps / bs) <= d_step d <= num_steps + bs /\ trace (d_rows d) (d_state d) (d_step d + 1).
Proof.
  intros bs w m n B R P T. destruct (cover_run bs w B R) as [OG C]. specialize (C m P). unfold cover in C. pose proof (run_from_reachable bs w R) as RE. destruct (inv_reachable bs w RE) as [GE [SO _]]. destruct (SO m P) as [SM MM]. rewrite Forall_forall in GE.
  assert (FL : (bs * (n / bs)) mod bs = 0) by (rewrite Nat.mul_comm; apply Nat.mod_mul; lia). pose proof (Nat.mul_div_le n bs ltac:(lia)) as LE. set (fl := bs * (n / bs)) in *.
  destruct (unsafe_step m) as [u|] eqn:U.
  - destruct C as [[L1 L2] F]. specialize (MM u U). destruct F as [->|[f [I E]]]; [lia|]. exists f. split; [exact I|]. pose proof (gap bs fl u B FL MM ltac:(lia)). split; [lia|]. exact (GE (Good f) I).
  - destruct C as [Z|[f [I [L1 L2]]]]; [lia|]. exists f. split; [exact I|]. split; [lia|]. exact (GE (Good f) I).
Qed.
End Props.

(** ** Limits *)
(** A new process has no safe data of its own, even when it continues from a saved file: a failure
    before it has passed two block boundaries ends the run. *)
Theorem C46_restart_unprotected : forall (S : Type) (init : S) dir m, start S init dir = Some m -> rollback S m = None.
Proof. intros S init dir m H. unfold start in H. destruct (find_latest S dir None) as [[d|k]|]; [|discriminate|]; injection H as <-; reflexivity. Qed.

(** ** A run of the model *)
Definition xiter (n s s' : nat) : Prop := s' = s + n + 1.
Definition xrej (s s1 : nat) : Prop := s1 = s + 100.
Definition xstep (w : world nat) : world nat :=
  match proc w with
  | Some m => {| saved := snd (run nat 2 Good (saved w) m (cur m + t m + 1)); restore := restore w; proc := Some (fst (run nat 2 Good (saved w) m (cur m + t m + 1))) |}
  | None => w end.
Definition xempty : world nat := {| saved := []; restore := []; proc := None |}.
Definition xstart (w : world nat) : world nat := {| saved := saved w; restore := restore w; proc := start nat 0 (saved w ++ restore w) |}.
Fixpoint xrun (n : nat) (w : world nat) : world nat := match n with 0 => w | S k => xrun k (xstep w) end.
Lemma xstep_event w m : proc w = Some m -> event nat 2 0 xiter xrej w (xstep w).
Proof. intros P. unfold xstep. rewrite P. apply Succeed; [exact P|reflexivity]. Qed.
Lemma xstep_proc w m : proc w = Some m -> exists m', proc (xstep w) = Some m'.
Proof. intros P. unfold xstep. rewrite P. eexists. reflexivity. Qed.
Lemma xrun_from n : forall w m, run_from nat 0 xiter xrej 2 w -> proc w = Some m -> run_from nat 0 xiter xrej 2 (xrun n w).
Proof. induction n as [|n IH]; intros w m R P; [exact R|]. cbn. destruct (xstep_proc w m P) as [m' P']. eapply IH; [eapply Then; [exact R|eapply xstep_event; exact P]|exact P']. Qed.
Lemma xstart_from : run_from nat 0 xiter xrej 2 (xstart xempty).
Proof. eapply Then; [apply From with (w := xempty); [reflexivity|constructor|intros f []]|]. unfold xstart. eapply Start; reflexivity. Qed.
(** five steps, then a rollback to step 2 *)
Definition xw5 := xrun 5 (xstart xempty).
Example xw5_reachable : run_from nat 0 xiter xrej 2 xw5.
Proof. unfold xw5. eapply xrun_from; [exact xstart_from|reflexivity]. Qed.
Example xw5_saved : map index (saved xw5) = [0; 2]. Proof. reflexivity. Qed.
Example xw5_rollback : match proc xw5 with Some m => match rollback nat m with Some m' => t m' = 3 /\ map fst (rows m') = [0; 1; 2] /\ cur m' = 6 /\ t m = 5 | None => False end | None => False end.
Proof. cbn. repeat split; reflexivity. Qed.
Example xw7_final : match proc (xrun 7 (xstart xempty)) with Some m => t m = 4 + 2 + 1 | None => False end. Proof. reflexivity. Qed.

(** Full statement: after any crash a new process can start.  It is false: the copy into the save
    path is not atomic, and a kill during it leaves a torn newest file that every later process
    tries to read; older data in the same directory is never tried. *)
Theorem C46_torn_refuted : exists w d, run_from nat 0 xiter xrej 2 w /\ proc w = None /\ In (Good d) (saved w) /\ genuine nat 0 xiter xrej d /\
  start nat 0 (saved w ++ restore w) = None /\ forall w', ~ event nat 2 0 xiter xrej w w'.
Proof.
  set (w4 := xrun 4 (xstart xempty)). assert (R4 : run_from nat 0 xiter xrej 2 w4) by (unfold w4; eapply xrun_from; [exact xstart_from|reflexivity]).
  destruct (proc w4) as [m|] eqn:P; [|discriminate].
  set (w := {| saved := snd (run nat 2 (fun d => Torn (d_step d)) (saved w4) m (cur m + t m + 1)); restore := restore w4; proc := None |}).
  assert (R : run_from nat 0 xiter xrej 2 w) by (eapply Then; [exact R4|apply KillInCopy; [exact P|reflexivity]]).
  assert (E : w = {| saved := [Good {| d_step := 0; d_state := 1; d_rows := [(0, 1)] |}; Torn 2]; restore := []; proc := None |}).
  { subst w. cbn in P. injection P as <-. reflexivity. }
  clearbody w. subst w. exists {| saved := [Good {| d_step := 0; d_state := 1; d_rows := [(0, 1)] |}; Torn 2]; restore := []; proc := None |}, {| d_step := 0; d_state := 1; d_rows := [(0, 1)] |}.
  split; [exact R|]. split; [reflexivity|]. split; [left; reflexivity|]. split.
  - apply (Next nat 0 xiter xrej [] 0 0 0 1); [apply Begin|apply Here|reflexivity].
  - split; [reflexivity|]. intros w' EV. inversion EV; subst; cbn in *; discriminate.
Qed.
Print Assumptions C46_metric. Print Assumptions C46_trace. Print Assumptions C46_files. Print Assumptions C46_rollback. Print Assumptions C46_promoted.
Print Assumptions C46_restart. Print Assumptions C46_final. Print Assumptions C46_restart_unprotected. Print Assumptions C46_torn_refuted.
