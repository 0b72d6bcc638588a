(** C90: whatever happens to processes, transfers and machines, work continues from genuine data. *)
From Coq Require Import String Ascii List Bool Arith NArith Lia Permutation.
From Verif Require Import Roll_Model Roll_Spec Roll_Props Rem_Model Rem_Spec Rem_Names.
Import ListNotations.
Open Scope list_scope.

Section Props.
Variables (S : Type) (init : S) (iter : nat -> S -> S -> Prop) (rejected : S -> S -> Prop) (prefix : string) (bs : nat) (h : handler).
Local Notation genuine := (genuine S init iter rejected).
Local Notation sound := (sound S init iter rejected).
Local Notation trace := (trace S init iter rejected).
Local Notation dir := (dir S).
Local Notation find_latest := (Rem_Model.find_latest S prefix).

(** ** Directories *)
Lemma remove_In n e (l : dir) : In e (remove S n l) <-> In e l /\ fst e <> n.
Proof. unfold remove. rewrite filter_In. destruct (String.eqb_spec (fst e) n) as [E|E]; cbn; split; intros [A B]; (split; [exact A|]); [discriminate|destruct (B E)|exact E|reflexivity]. Qed.
Lemma put_at_In n c e (l : dir) : In e (put_at S n c l) <-> e = (n, c) \/ (In e l /\ fst e <> n).
Proof. unfold put_at. rewrite in_app_iff, remove_In. cbn. split; [intros [X|[X|[]]]; [right; exact X|left; symmetry; exact X]|intros [X|X]; [right; left; symmetry; exact X|left; exact X]]. Qed.
Lemma put_In hh o n c e (l : dir) : In e (put S hh o n c l) -> In e l \/ e = (n, c) \/ snd e = Part.
Proof.
  destruct hh, o; cbn [put]; intros H; auto; apply put_at_In in H; destruct H as [->|[H _]]; auto. apply remove_In in H. tauto.
Qed.
Lemma get_In hh o n c e (l : dir) : In e (get S hh o n c l) -> In e l \/ e = (n, c) \/ snd e = Part.
Proof.
  destruct hh, o; cbn [get]; intros H; auto; [apply put_at_In in H; destruct H as [->|[H _]]; auto..| |apply put_at_In in H; destruct H as [->|[H _]]; auto].
  destruct (has S n l); [auto|]. apply put_at_In in H. destruct H as [->|[H _]]; auto. apply remove_In in H. tauto.
Qed.
Lemma ls_In hh (l l' : dir) e : ls S hh l l' -> In e l' -> In e l.
Proof. destruct hh; cbn [ls]; intros H I; [subst; destruct I|exact (Permutation_in _ (Permutation_sym H) I)..]. Qed.

(** ** The newest file *)
Definition stepf (best : option (string * content S * nat)) (e : string * content S) :=
  match data_index prefix (fst e) with
  | None => best
  | Some k => match best with Some (_, _, b) => if Nat.ltb b k then Some (e, k) else best | None => Some (e, k) end
  end.
Lemma latest_gen : forall (l : dir) best,
  match fold_left stepf l best with
  | None => best = None /\ forall e, In e l -> data_index prefix (fst e) = None
  | Some (e, k) => ((In e l /\ data_index prefix (fst e) = Some k) \/ best = Some (e, k)) /\ (forall e' j, In e' l -> data_index prefix (fst e') = Some j -> (j <= k)%nat) /\ (forall e' j, best = Some (e', j) -> (j <= k)%nat)
  end.
Proof.
  induction l as [|e l IH]; intros best; cbn [fold_left].
  - destruct best as [[e k]|]; [|split; [reflexivity|intros ? []]]. split; [right; reflexivity|]. split; [intros ? ? []|]. intros e' j E. injection E as _ ->. reflexivity.
  - specialize (IH (stepf best e)). destruct (fold_left stepf l (stepf best e)) as [[f k]|].
    + destruct IH as [A [B C]]. unfold stepf in A, C. destruct (data_index prefix (fst e)) as [i|] eqn:E.
      * assert (UP : (i <= k)%nat /\ forall e' j, best = Some (e', j) -> (j <= k)%nat).
        { destruct best as [[eb b]|]; [destruct eb as [nb cb]; destruct (Nat.ltb_spec b i) as [L|L]|].
          - specialize (C _ _ eq_refl). split; [exact C|]. intros ? ? X. injection X as _ <-. lia.
          - specialize (C _ _ eq_refl). split; [lia|]. intros ? ? X. injection X as _ <-. lia.
          - specialize (C _ _ eq_refl). split; [exact C|discriminate]. }
        split; [|split; [|apply UP]].
        -- destruct A as [[A1 A2]|A]; [left; split; [right|]; assumption|]. destruct best as [[[nb cb] b]|]; [destruct (Nat.ltb b i)|]; [injection A as <- <-; left; split; [left; reflexivity|exact E]|right; exact A|injection A as <- <-; left; split; [left; reflexivity|exact E]].
        -- intros e' j [<-|I] X; [rewrite E in X; injection X as <-; apply UP|eapply B; eauto].
      * split; [destruct A as [[A1 A2]|A]; [left; split; [right|]; assumption|right; exact A]|]. split; [|exact C]. intros e' j [<-|I] X; [congruence|eapply B; eauto].
    + destruct IH as [A B]. unfold stepf in A. destruct (data_index prefix (fst e)) as [i|] eqn:E; [destruct best as [[[nb cb] b]|]; [destruct (Nat.ltb b i)|]; discriminate|]. split; [exact A|]. intros e' [<-|I]; [exact E|apply B, I].
Qed.
Lemma latest_some (l : dir) n c k : find_latest l = Some (n, c, k) -> In (n, c) l /\ data_index prefix n = Some k /\ forall e j, In e l -> data_index prefix (fst e) = Some j -> (j <= k)%nat.
Proof. intros H. pose proof (latest_gen l None) as G. change (fold_left stepf l None) with (find_latest l) in G. rewrite H in G. destruct G as [[[A B]|A] [C _]]; [auto|discriminate]. Qed.
Lemma latest_none (l : dir) : find_latest l = None -> forall e, In e l -> data_index prefix (fst e) = None.
Proof. intros H. pose proof (latest_gen l None) as G. change (fold_left stepf l None) with (find_latest l) in G. rewrite H in G. apply G. Qed.
Lemma download_In o (l local : dir) e : In e (download S prefix h o l local) -> In e local \/ In e l \/ snd e = Part.
Proof.
  unfold download. destruct (find_latest l) as [[[n c] k]|] eqn:F; [|auto]. intros H. apply get_In in H. destruct H as [H|[->|H]]; auto. right. left. apply (latest_some _ _ _ _ F).
Qed.

(** ** Loading *)
Lemma load_sound found m : load S init found = Some m -> (forall n d k, found = Some (n, Whole d, k) -> genuine d) ->
  sound m /\ multiples S bs m /\ unsafe_step m = None /\ safe_step m = None /\
  ((found = None /\ t m = 0 /\ cur m = init /\ rows m = []) \/ exists n d k, found = Some (n, Whole d, k) /\ d_step d = k /\ t m = k + 1 /\ cur m = d_state d /\ rows m = d_rows d).
Proof.
  intros H G. destruct found as [[[n [d|]] k]|]; cbn [load] in H; [|discriminate|].
  - destruct (Nat.eqb_spec (d_step d) k) as [E|]; [|discriminate]. assert (X : start S init [Good d] = Some m) by (cbn; rewrite E; exact H).
    destruct (start_sound S init iter rejected bs [Good d] m) as [A [B [C [D _]]]]; [repeat constructor; cbn; eapply G; reflexivity|exact X|]. split; [exact A|]. split; [exact B|]. split; [exact C|]. split; [exact D|]. injection H as <-. right. exists n, d, k. cbn. auto 6.
  - destruct (start_sound S init iter rejected bs [] m) as [A [B [C [D _]]]]; [constructor|exact H|]. split; [exact A|]. split; [exact B|]. split; [exact C|]. split; [exact D|]. injection H as <-. left. cbn. auto.
Qed.
Lemma run_files up m s' : sound m ->
  snd (run S bs up [] m s') = [] \/ exists u d, unsafe_step m = Some u /\ ws m u = Some d /\ t m mod bs = 0 /\ u < t m /\ snd (run S bs up [] m s') = [up d].
Proof.
  intros SM. destruct (run_cases S init iter rejected bs up [] m s' SM) as [[Z E]|[[Z [U E]]|[Z [u [d [U [D [LT E]]]]]]]]; rewrite E; cbn [snd]; auto. right. exists u, d. repeat split; auto.
Qed.

(** ** The invariant *)
Definition inv (w : world S) : Prop := all_genuine S init iter rejected w /\ forall m, proc w = Some m -> sound m /\ multiples S bs m.
Lemma stored_genuine w how d : all_genuine S init iter rejected w -> genuine d -> all_genuine S init iter rejected (stored_as S prefix w h how [Good d]).
Proof.
  intros G GD n x H. unfold everything, stored_as in H. cbn [loc rem rloc rrem] in H. rewrite !in_app_iff in H.
  assert (Q : forall y, In y (everything S w) \/ y = (data_name prefix (d_step d), Whole d) \/ snd y = Part -> y = (n, Whole x) -> genuine x).
  { intros y [I|[->|P]] E; [subst y; eapply G; exact I|injection E as _ <-; exact GD|subst y; discriminate]. }
  assert (U : forall y, In y (fst (upload S prefix h how d (loc w) (rem w))) \/ In y (snd (upload S prefix h how d (loc w) (rem w))) -> In y (everything S w) \/ y = (data_name prefix (d_step d), Whole d) \/ snd y = Part).
  { intros y. unfold everything. rewrite !in_app_iff. destruct how; cbn [upload fst snd]; intros [I|I]; try (apply put_In in I; tauto); tauto. }
  destruct H as [H|[H|H]]; [apply (Q _ (U _ (or_introl H)) eq_refl)|apply (Q _ (U _ (or_intror H)) eq_refl)|]. eapply G. unfold everything. rewrite !in_app_iff. right. right. exact H.
Qed.
Lemma with_genuine w p : all_genuine S init iter rejected w -> all_genuine S init iter rejected (with_proc S w p). Proof. exact (fun H => H). Qed.
Lemma inv_history w : history S prefix bs init iter rejected h (begins S init iter rejected) w -> inv w.
Proof.
  induction 1 as [w [P G]|w w' H [G SO] EV]; [split; [exact G|intros m E; congruence]|].
  destruct EV as [w m s' how P IT r|w m s1 P RJ|w m m' P RB|w m how P|w m P|w|w o1 o2 l1 l2 l3 l4 P L1 L2 loc' rloc' L3 L4].
  - destruct (SO m P) as [SM MM]. split.
    + apply with_genuine. destruct (run_files Good m s' SM) as [E|[u [d [U [D [_ [_ E]]]]]]]; subst r; rewrite E; [exact G|]. apply stored_genuine; [exact G|]. apply (s_ws _ _ _ _ m SM u d D).
    + intros x X. cbn [proc with_proc] in X. destruct (still S h how (snd r)); [|discriminate]. injection X as <-. apply run_sound; assumption.
  - destruct (SO m P) as [SM MM]. split; [exact G|]. intros x X. injection X as <-. split; [|exact MM]. destruct (s_trace _ _ _ _ m SM) as [s0 [TR AT]].
    split; cbn; [exists s0; split; [exact TR|eapply attempts_snoc; eauto]|apply (s_ws _ _ _ _ m SM)|apply (s_only _ _ _ _ m SM)|apply (s_unsafe _ _ _ _ m SM)|apply (s_safe _ _ _ _ m SM)|apply (s_order _ _ _ _ m SM)].
  - destruct (SO m P) as [SM MM]. split; [exact G|]. intros x X. injection X as <-. destruct (rollback_sound S init iter rejected bs m m' SM RB) as [A [B _]]. auto.
  - destruct (SO m P) as [SM MM]. split; [|intros x X; discriminate]. apply with_genuine. unfold data_at. destruct (safe_step m) as [k|]; [|exact G]. destruct (ws m k) as [d|] eqn:D; [|exact G]. apply stored_genuine; [exact G|]. apply (s_ws _ _ _ _ m SM k d D).
  - split; [exact G|intros x X; discriminate].
  - split; [|intros x X; discriminate]. intros n d I. apply (G n d). unfold everything in *. cbn [loc rem rloc rrem] in I. rewrite !in_app_iff in *. destruct I as [[]|[I|[[]|I]]]; tauto.
  - assert (GL : forall n d, In (n, Whole d) loc' -> genuine d).
    { intros n d I. apply download_In in I. destruct I as [I|[I|I]]; [| |discriminate]; apply (G n d); unfold everything; rewrite !in_app_iff; [tauto|]. apply (ls_In _ _ _ _ L1) in I. tauto. }
    assert (GR : forall n d, In (n, Whole d) rloc' -> genuine d).
    { intros n d I. assert (J : In (n, Whole d) (rloc w) \/ In (n, Whole d) (rrem w)).
      { subst rloc'. destruct o1; [| |auto]; apply download_In in I; (destruct I as [I|[I|I]]; [auto|right; apply (ls_In _ _ _ _ L2 I)|discriminate]). }
      apply (G n d). unfold everything. rewrite !in_app_iff. tauto. }
    split.
    + intros n d I. unfold everything in I. cbn [loc rem rloc rrem] in I. rewrite !in_app_iff in I. destruct I as [I|[I|[I|I]]]; [eapply GL; eauto| |eapply GR; eauto|]; apply (G n d); unfold everything; rewrite !in_app_iff; tauto.
    + intros m X. cbn [proc] in X. assert (LD : load S init (find_latest (l3 ++ l4)) = Some m) by (destruct o1, o2; first [exact X|discriminate]).
      destruct (load_sound _ m LD) as [A [B _]]; [|auto]. intros n d k F. apply latest_some in F. destruct F as [I _]. apply in_app_or in I. destruct I as [I|I]; [apply (ls_In _ _ _ _ L3) in I; eapply GL; eauto|apply (ls_In _ _ _ _ L4) in I; eapply GR; eauto].
Qed.

(** ** Theorems for every history: kills in transfers, failing transfers, lost machines *)
(** A running process continues an execution without failures: its metric rows and state are those of one. *)
Theorem C90_trace : forall w m, history S prefix bs init iter rejected h (begins S init iter rejected) w -> proc w = Some m ->
  (exists s0, trace (rows m) s0 (t m) /\ attempts S rejected s0 (cur m)) /\ map fst (rows m) = seq 0 (t m).
Proof. intros w m H P. destruct (proj2 (inv_history w H) m P) as [SM _]. pose proof (s_trace _ _ _ _ m SM) as T. split; [exact T|]. destruct T as [s0 [T _]]. apply (trace_steps _ _ _ _ _ _ _ T). Qed.
(** Every whole file, local or remote, is the checkpoint and metric file of such an execution. *)
Theorem C90_files : forall w n d, history S prefix bs init iter rejected h (begins S init iter rejected) w -> In (n, Whole d) (loc w) \/ In (n, Whole d) (rem w) ->
  trace (d_rows d) (d_state d) (d_step d + 1) /\ map fst (d_rows d) = seq 0 (d_step d + 1).
Proof.
  intros w n d H I. assert (G : genuine d) by (apply (proj1 (inv_history w H) n d); unfold everything; rewrite !in_app_iff; tauto). split; [exact G|apply (trace_steps _ _ _ _ _ _ _ G)].
Qed.
(** A process that starts with working downloads continues right after the newest file it finds in the four directories together. *)
Theorem C90_newest : forall w w' m, history S prefix bs init iter rejected h (begins S init iter rejected) w -> h <> Dummy -> proc w = None -> started S init prefix h w w' -> proc w' = Some m ->
  (forall n c k, In (n, c) (everything S w) -> data_index prefix n = Some k -> (k < t m)%nat) /\
  (t m = 0 \/ exists n d, In (n, Whole d) (everything S w) /\ data_index prefix n = Some (d_step d) /\ t m = d_step d + 1 /\ cur m = d_state d /\ rows m = d_rows d).
Proof.
  intros w w' m H ND P ST PM. destruct ST as [w l1 l2 l3 l4 L1 L2 loc' rloc' L3 L4]. cbn [proc] in PM.
  assert (LP1 : Permutation (rem w) l1) by (destruct h; [contradiction|exact L1..]). assert (LP2 : Permutation (rrem w) l2) by (destruct h; [contradiction|exact L2..]).
  assert (DN : forall (l local : dir) n c k, In (n, c) l \/ In (n, c) local -> data_index prefix n = Some k -> exists n' c' k', In (n', c') (download S prefix h Done l local) /\ data_index prefix n' = Some k' /\ (k <= k')%nat).
  { intros l local n c k I K. unfold download. destruct (find_latest l) as [[[n1 c1] k1]|] eqn:F.
    - destruct (latest_some _ _ _ _ F) as [I1 [K1 M1]]. destruct I as [I|I].
      + assert (Q : exists c', In (n1, c') (get S h Done n1 c1 local)).
        { destruct h; [contradiction|..]; cbn [get]; [exists c1; apply put_at_In; auto|]. destruct (has S n1 local) eqn:HS; [|exists c1; apply put_at_In; auto]. unfold has in HS. apply existsb_exists in HS. destruct HS as [[n2 c2] [I2 E]]. apply String.eqb_eq in E. cbn in E. subst n2. exists c2. exact I2. }
        destruct Q as [c' Q]. exists n1, c', k1. split; [exact Q|]. split; [exact K1|]. apply (M1 (n, c) k I K).
      + destruct (String.eqb_spec n n1) as [->|NE].
        * assert (Q : exists c', In (n1, c') (get S h Done n1 c1 local)).
          { destruct h; [contradiction|..]; cbn [get]; [exists c1; apply put_at_In; auto|]. destruct (has S n1 local) eqn:HS; [exists c; exact I|exists c1; apply put_at_In; auto]. }
          destruct Q as [c' Q]. exists n1, c', k. auto.
        * destruct (String.eqb_spec n (copying n1)) as [->|NC].
          -- assert (Q : exists c', In (n1, c') (get S h Done n1 c1 local)).
             { destruct h; [contradiction|..]; cbn [get]; [exists c1; apply put_at_In; auto|]. destruct (has S n1 local) eqn:HS; [|exists c1; apply put_at_In; auto]. unfold has in HS. apply existsb_exists in HS. destruct HS as [[n2 c2] [I2 E]]. apply String.eqb_eq in E. cbn in E. subst n2. exists c2. exact I2. }
             destruct Q as [c' Q]. exists n1, c', k1. split; [exact Q|]. split; [exact K1|]. assert (X : data_index prefix (copying n1) = Some k1); [|rewrite X in K; injection K as ->; reflexivity].
             apply copying_index, K1.
          -- exists n, c, k. split; [|auto]. destruct h; [contradiction|..]; cbn [get]; [apply put_at_In; right; split; [exact I|cbn; congruence]|]. destruct (has S n1 local); [exact I|]. apply put_at_In. right. split; [apply remove_In; split; [exact I|cbn; congruence]|cbn; congruence].
    - destruct I as [I|I]; [pose proof (latest_none _ F _ I) as X; cbn in X; congruence|]. exists n, c, k. auto. }
  destruct (load_sound _ m PM) as [_ [_ [_ [_ Q]]]].
  { intros n d k F. apply latest_some in F. destruct F as [I _]. eapply (proj1 (inv_history w H) n d). unfold everything. rewrite !in_app_iff. apply in_app_or in I. destruct I as [I|I]; [apply Permutation_in with (l' := loc') in I; [|symmetry; exact L3]|apply Permutation_in with (l' := rloc') in I; [|symmetry; exact L4]]; apply download_In in I; (destruct I as [I|[I|I]]; [tauto| |discriminate]).
    - apply (Permutation_in _ (Permutation_sym LP1)) in I. tauto.
    - apply (Permutation_in _ (Permutation_sym LP2)) in I. tauto. }
  assert (UP : forall n c k, In (n, c) (everything S w) -> data_index prefix n = Some k -> exists n' c' k', In (n', c') (l3 ++ l4) /\ data_index prefix n' = Some k' /\ (k <= k')%nat).
  { intros n c k I K. unfold everything in I. rewrite !in_app_iff in I.
    assert (J : (In (n, c) l1 \/ In (n, c) (loc w)) \/ (In (n, c) l2 \/ In (n, c) (rloc w))).
    { destruct I as [I|[I|[I|I]]]; [tauto|apply (Permutation_in _ LP1) in I; tauto|tauto|apply (Permutation_in _ LP2) in I; tauto]. }
    destruct J as [J|J]; destruct (DN _ _ _ _ _ J K) as [n' [c' [k' [A [B C]]]]]; exists n', c', k'; (split; [|auto]); apply in_or_app; [left; eapply Permutation_in; [exact L3|exact A]|right; eapply Permutation_in; [exact L4|exact A]]. }
  destruct Q as [[F [T _]]|[n [d [k [F [E [T [C R]]]]]]]].
  - split; [|left; exact T]. intros n c k I K. destruct (UP n c k I K) as [n' [c' [k' [A [B _]]]]]. pose proof (latest_none _ F _ A) as X. cbn in X. congruence.
  - destruct (latest_some _ _ _ _ F) as [I [KI M]]. split.
    + intros n0 c0 k0 I0 K0. destruct (UP n0 c0 k0 I0 K0) as [n' [c' [k' [A [B LE]]]]]. pose proof (M (n', c') k' A B). lia.
    + right. exists n, d. rewrite E. repeat split; auto. unfold everything. rewrite !in_app_iff. apply in_app_or in I. destruct I as [I|I]; [apply Permutation_in with (l' := loc') in I; [|symmetry; exact L3]|apply Permutation_in with (l' := rloc') in I; [|symmetry; exact L4]]; apply download_In in I; (destruct I as [I|[I|I]]; [tauto| |discriminate]).
      * apply (Permutation_in _ (Permutation_sym LP1)) in I. tauto.
      * apply (Permutation_in _ (Permutation_sym LP2)) in I. tauto.
Qed.
End Props.
