From Coq Require Import String Ascii List Bool Arith ZArith NArith QArith Lia Permutation.
From Verif Require Import Common Common_Proofs Ckpt_Model Ckpt_Spec Ckpt_Proofs Stage_Model Stage_Spec Stage_Proofs.
Import ListNotations.
Open Scope string_scope.

(** ** Writes of a trace *)
Definition wr (l : list action) : list (N * stats) :=
  flat_map (fun a => match a with Write s x => [(s, x)] | _ => [] end) l.
Fixpoint numbered (n : N) (ss : list stats) : list (N * stats) :=
  match ss with [] => [] | s :: r => (n, s) :: numbered (n + 1) r end.

Definition lw (r : option stats) (l : list (N * stats)) (k : N) : option stats :=
  fold_left (fun r (a : N * stats) => if (fst a =? k)%N then Some (snd a) else r) l r.

Lemma lw_app : forall a b r k, lw r (a ++ b)%list k = lw (lw r a k) b k.
Proof. intros. apply fold_left_app. Qed.

Lemma last_written_wr : forall l k, last_written l k = lw None (wr l) k.
Proof.
  intros l k. unfold last_written. generalize (@None stats).
  induction l as [|a l IH]; intros r; auto. cbn [fold_left wr flat_map].
  rewrite IH. destruct a; reflexivity.
Qed.

Lemma wr_app : forall a b, wr (a ++ b)%list = (wr a ++ wr b)%list.
Proof. intros. apply flat_map_app. Qed.

Lemma lw_numbered_out : forall ss n r k, (k < n)%N \/ (n + N.of_nat (length ss) <= k)%N ->
  lw r (numbered n ss) k = r.
Proof.
  induction ss as [|s ss IH]; intros n r k H; auto. cbn [numbered lw fold_left fst snd].
  destruct (N.eqb_spec n k); [simpl in H; lia|]. fold (lw r (numbered (n + 1) ss) k).
  apply IH. simpl in H. lia.
Qed.

Lemma lw_numbered_in : forall ss n r k, (n <= k)%N -> (k < n + N.of_nat (length ss))%N ->
  lw r (numbered n ss) k = nth_error ss (N.to_nat (k - n)).
Proof.
  induction ss as [|s ss IH]; intros n r k H1 H2; [simpl in H2; lia|].
  cbn [numbered lw fold_left fst snd].
  fold (lw (if (n =? k)%N then Some s else r) (numbered (n + 1) ss) k).
  destruct (N.eqb_spec n k).
  - subst. rewrite lw_numbered_out by lia. replace (k - k)%N with 0%N by lia. reflexivity.
  - rewrite IH by (simpl in H2; lia).
    replace (N.to_nat (k - n)) with (S (N.to_nat (k - (n + 1)))) by lia. reflexivity.
Qed.

(** Extending a log: writes [n, n+1, ...] on top of [n] known entries. *)
Lemma known_extend : forall pre ss n ss2 l,
  (forall k, (k < N.of_nat (length ss))%N -> last_written pre k = nth_error ss (N.to_nat k)) ->
  (N.of_nat n <= N.of_nat (length ss))%N -> wr l = numbered (N.of_nat n) ss2 ->
  let ss' := (firstn n ss ++ ss2)%list in
  forall k, (k < N.of_nat (length ss'))%N -> last_written (pre ++ l)%list k = nth_error ss' (N.to_nat k).
Proof.
  intros pre ss n ss2 l K Hn Hw ss' k Hk.
  rewrite last_written_wr, wr_app, lw_app, Hw, <- last_written_wr.
  assert (Ln: length (firstn n ss) = n) by (rewrite firstn_length; lia).
  unfold ss' in Hk. rewrite app_length, Ln in Hk.
  destruct (N.lt_ge_cases k (N.of_nat n)).
  - rewrite lw_numbered_out by lia. rewrite K by lia. unfold ss'.
    rewrite nth_error_app1 by lia.
    rewrite <- (firstn_skipn n ss) at 1. rewrite nth_error_app1 by lia. reflexivity.
  - rewrite lw_numbered_in by lia. unfold ss'. rewrite nth_error_app2 by lia.
    f_equal. lia.
Qed.

Lemma trace_wr : forall c init n st l o, trace c init n st l o ->
  exists ss2, wr l = numbered n ss2 /\ (n + N.of_nat (length ss2) <= iterations c)%N /\
    (forall r, (fst r <= n)%N -> (fst (resume r l) <= n + N.of_nat (length ss2))%N) /\
    (o <> Killed -> (n < iterations c)%N -> forall r, fst (resume r l) = (n + N.of_nat (length ss2))%N).
Proof.
  intros c init n st l o T. induction T.
  - exists []. repeat split; simpl; intros; lia.
  - exists []. repeat split; simpl; intros; try lia; congruence.
  - exists []. repeat split; simpl; intros; try lia; congruence.
  - exists [s]. repeat split; simpl; intros; try lia; congruence.
  - exists [s]. repeat split; simpl; intros; try lia.
  - exists [s]. repeat split; simpl; intros; try lia.
  - exists [s]. repeat split; simpl; intros; try lia; congruence.
  - destruct IHT as [ss2 [E [L [R1 R2]]]]. exists (s :: ss2). repeat split.
    + cbn [numbered]. rewrite <- E. reflexivity.
    + cbn [length]. lia.
    + intros r Hr. change (resume r (Exec n :: Write n s :: l)) with (resume r l).
      specialize (R1 r ltac:(lia)). cbn [length]. lia.
    + intros NK _ r. change (resume r (Exec n :: Write n s :: l)) with (resume r l).
      rewrite (R2 NK ltac:(lia) r). cbn [length]. lia.
  - destruct IHT as [ss2 [E [L [R1 R2]]]]. exists (s :: ss2). repeat split.
    + cbn [numbered]. rewrite <- E. reflexivity.
    + cbn [length]. lia.
    + intros r Hr. change (resume r (Exec n :: Write n s :: Save n st' :: l)) with (resume ((n + 1)%N, st') l).
      specialize (R1 ((n + 1)%N, st') ltac:(simpl; lia)). cbn [length]. lia.
    + intros NK _ r. change (resume r (Exec n :: Write n s :: Save n st' :: l)) with (resume ((n + 1)%N, st') l).
      destruct (N.lt_ge_cases (n + 1) (iterations c)) as [Hlt|Hge].
      * rewrite (R2 NK Hlt). cbn [length]. lia.
      * inversion T; subst; try lia.
        destruct ss2 as [|? ?]; [|discriminate]. simpl. lia.
  - exists [s]. repeat split; simpl; intros; try lia.
  - exists [s]. repeat split; simpl; intros; try lia; congruence.
Qed.

(** ** CSV *)
Lemma append_line_ended : forall f l, Forall (fun x => ended x = true) f ->
  append_line f l = (f ++ [l])%list.
Proof.
  intros f l H. unfold append_line. destruct (rev f) as [|[b e] r] eqn:E; auto.
  assert (In (mkLine b e) f).
  { rewrite <- (rev_involutive f), E. apply in_rev. rewrite rev_involutive. left; reflexivity. }
  rewrite Forall_forall in H. specialize (H _ H0). simpl in H. subst e. reflexivity.
Qed.

Lemma csv_rows_snoc : forall c ss k s,
  csv_rows c k (ss ++ [s])%list = (csv_rows c k ss ++ [mkLine (csv_row c (k + N.of_nat (length ss)) s) true])%list.
Proof.
  induction ss as [|x ss IH]; intros k s; cbn [app csv_rows length].
  - rewrite N.add_0_r. reflexivity.
  - rewrite IH. cbn [app]. replace (k + 1 + N.of_nat (length ss))%N with (k + N.of_nat (S (length ss)))%N by lia. reflexivity.
Qed.

Lemma csv_rows_len : forall c ss k, length (csv_rows c k ss) = length ss.
Proof. induction ss; intros; simpl; auto. Qed.

Lemma csv_rows_firstn : forall c n ss k, firstn n (csv_rows c k ss) = csv_rows c k (firstn n ss).
Proof. induction n; intros ss k; auto. destruct ss; simpl; auto. rewrite IHn. reflexivity. Qed.

Lemma csv_rows_ended : forall c ss k, Forall (fun x => ended x = true) (csv_rows c k ss).
Proof. induction ss; intros; simpl; constructor; auto. Qed.

Lemma csv_log_ended : forall c hdr ss, Forall (fun x => ended x = true) (csv_log c hdr ss).
Proof. intros. constructor; auto. apply csv_rows_ended. Qed.

Lemma csv_log_snoc : forall c hdr ss s,
  (csv_log c hdr ss ++ [mkLine (csv_row c (N.of_nat (length ss)) s) true])%list = csv_log c hdr (ss ++ [s]).
Proof. intros. unfold csv_log. rewrite csv_rows_snoc. reflexivity. Qed.

(** Writer state while rows [0..length ss-1] are in the file. *)
Definition csv_at (c : stage) hdr (ss : list stats) (w : csvw) : Prop :=
  (ss = [] /\ cfile w = [] /\ needs_header w = true) \/
  (cfile w = csv_log c hdr ss /\ needs_header w = false).

(** File left behind: complete rows, then possibly an unterminated fragment. *)
Definition csv_end (c : stage) hdr (ss : list stats) (tail : list line) (w : csvw) : Prop :=
  (ss = [] /\ tail = [] /\ cfile w = []) \/ cfile w = (csv_log c hdr ss ++ tail)%list.

Lemma csv_at_end : forall c hdr ss w, csv_at c hdr ss w -> csv_end c hdr ss [] w.
Proof. intros c hdr ss w [[-> [H _]]|[H _]]; [left|right]; auto. rewrite app_nil_r. exact H. Qed.

Lemma csv_write : forall c hdr ss w s, csv_at c hdr ss w -> csv_header c s = hdr ->
  csv_at c hdr (ss ++ [s])%list (csv_effect c w (Write (N.of_nat (length ss)) s)).
Proof.
  intros c hdr ss w s [[-> [H1 H2]]|[H1 H2]] E; right; simpl; (split; [|reflexivity]);
    unfold csv_pending; rewrite H1, H2; unfold append_lines.
  - cbn [fold_left app length]. rewrite E. reflexivity.
  - cbn [fold_left app]. rewrite append_line_ended by apply csv_log_ended. apply csv_log_snoc.
Qed.

Lemma csv_cut : forall c hdr ss w n s hd frag, csv_at c hdr ss w -> csv_header c s = hdr ->
  (hd = false -> frag = "") ->
  exists tail, csv_end c hdr ss tail (csv_effect c w (WriteCut n s hd frag)) /\
    (tail = [] \/ exists f, tail = [mkLine f false]).
Proof.
  intros c hdr ss w n s hd frag [[-> [H1 H2]]|[H1 H2]] E Hf.
  - unfold csv_effect. rewrite H1, H2. cbn [andb].
    destruct hd.
    + destruct (String.eqb frag "") eqn:F.
      * exists []. split; auto. right. simpl. rewrite E. reflexivity.
      * exists [mkLine frag false]. split; eauto. right. simpl. rewrite E. reflexivity.
    + rewrite (Hf eq_refl). exists []. split; auto. left. simpl. auto.
  - unfold csv_effect. rewrite H1, H2. cbn [andb app].
    destruct (String.eqb frag "") eqn:F.
    + exists []. split; auto. right. simpl. rewrite app_nil_r. reflexivity.
    + exists [mkLine frag false]. split; eauto. right. cbn [append_lines fold_left cfile].
      unfold append_lines. cbn [fold_left]. rewrite append_line_ended by apply csv_log_ended. reflexivity.
Qed.

Definition hdr_ok (c : stage) hdr (l : list action) : Prop :=
  (forall n x, In (Write n x) l -> csv_header c x = hdr) /\
  (forall n x hd f, In (WriteCut n x hd f) l -> csv_header c x = hdr /\ (hd = false -> f = "")).

Lemma hdr_ok_cons : forall c hdr a l, hdr_ok c hdr (a :: l) -> hdr_ok c hdr l.
Proof. intros c hdr a l [H1 H2]. split; intros; [eapply H1|eapply H2]; right; eauto. Qed.

Lemma csv_after_cons : forall c w a l, csv_after c w (a :: l) = csv_after c (csv_effect c w a) l.
Proof. reflexivity. Qed.

Lemma trace_csv : forall c init hdr n st l o, trace c init n st l o -> hdr_ok c hdr l ->
  forall ss w, csv_at c hdr ss w -> n = N.of_nat (length ss) ->
  exists ss2 tail, wr l = numbered n ss2 /\ csv_end c hdr (ss ++ ss2) tail (csv_after c w l) /\
    (o <> Killed -> tail = []) /\
    (N.of_nat (length ss + length ss2 + length tail) <= iterations c)%N /\ (length tail <= 1)%nat.
Proof.
  intros c init hdr n st l o T. induction T; intros HO ss w A En.
  - exists [], []. rewrite app_nil_r. split; auto. split; [exact (csv_at_end _ _ _ _ A)|].
    split; auto. simpl. split; lia.
  - exists [], []. rewrite app_nil_r. split; auto. split; [exact (csv_at_end _ _ _ _ A)|].
    split; auto. simpl. split; lia.
  - destruct HO as [_ HO]. destruct (HO n s hd frag ltac:(simpl; auto)) as [H1 H2].
    destruct (csv_cut c hdr ss w n s hd frag A H1 H2) as [tail [E1 E2]].
    exists [], tail. rewrite app_nil_r. split; auto. split; [exact E1|].
    split; [congruence|]. destruct E2 as [->|[f ->]]; simpl; split; lia.
  - assert (Hh: csv_header c s = hdr) by (eapply (proj1 HO); simpl; eauto).
    pose proof (csv_write c hdr ss w s A Hh) as B. rewrite <- En in B.
    exists [s], []. split; auto. split; [exact (csv_at_end _ _ _ _ B)|]. split; [congruence|]. simpl. split; lia.
  - assert (Hh: csv_header c s = hdr) by (eapply (proj1 HO); simpl; eauto).
    pose proof (csv_write c hdr ss w s A Hh) as B. rewrite <- En in B.
    exists [s], []. split; auto. split; [exact (csv_at_end _ _ _ _ B)|]. split; [auto|]. simpl. split; lia.
  - assert (Hh: csv_header c s = hdr) by (eapply (proj1 HO); simpl; eauto).
    pose proof (csv_write c hdr ss w s A Hh) as B. rewrite <- En in B.
    exists [s], []. split; auto. split; [exact (csv_at_end _ _ _ _ B)|]. split; [auto|]. simpl. split; lia.
  - assert (Hh: csv_header c s = hdr) by (eapply (proj1 HO); simpl; eauto).
    pose proof (csv_write c hdr ss w s A Hh) as B. rewrite <- En in B.
    exists [s], []. split; auto. split; [exact (csv_at_end _ _ _ _ B)|]. split; [congruence|]. simpl. split; lia.
  - assert (Hh: csv_header c s = hdr) by (eapply (proj1 HO); simpl; eauto).
    pose proof (csv_write c hdr ss w s A Hh) as B. rewrite <- En in B.
    destruct (IHT (hdr_ok_cons _ _ _ _ (hdr_ok_cons _ _ _ _ HO)) _ _ B) as [ss2 [tail [E1 [E2 [E3 [E4 E5]]]]]].
    { rewrite app_length. simpl. lia. }
    exists (s :: ss2), tail. split; [cbn [numbered]; rewrite <- E1; reflexivity|].
    split; [|split; auto].
    + rewrite <- app_assoc in E2. exact E2.
    + rewrite app_length in E4. simpl in *. split; lia.
  - assert (Hh: csv_header c s = hdr) by (eapply (proj1 HO); simpl; eauto).
    pose proof (csv_write c hdr ss w s A Hh) as B. rewrite <- En in B.
    destruct (IHT (hdr_ok_cons _ _ _ _ (hdr_ok_cons _ _ _ _ (hdr_ok_cons _ _ _ _ HO))) _ _ B)
      as [ss2 [tail [E1 [E2 [E3 [E4 E5]]]]]].
    { rewrite app_length. simpl. lia. }
    exists (s :: ss2), tail. split; [cbn [numbered]; rewrite <- E1; reflexivity|].
    split; [|split; auto].
    + rewrite <- app_assoc in E2. exact E2.
    + rewrite app_length in E4. simpl in *. split; lia.
  - assert (Hh: csv_header c s = hdr) by (eapply (proj1 HO); simpl; eauto).
    pose proof (csv_write c hdr ss w s A Hh) as B. rewrite <- En in B.
    exists [s], []. split; auto. split; [exact (csv_at_end _ _ _ _ B)|]. split; [congruence|]. simpl. split; lia.
  - assert (Hh: csv_header c s = hdr) by (eapply (proj1 HO); simpl; eauto).
    pose proof (csv_write c hdr ss w s A Hh) as B. rewrite <- En in B.
    exists [s], []. split; auto. split; [exact (csv_at_end _ _ _ _ B)|]. split; [congruence|]. simpl. split; lia.
Qed.

Lemma csv_open : forall c hdr ss tail w n, csv_end c hdr ss tail w -> (n <= length ss)%nat ->
  (length tail <= 1)%nat ->
  csv_at c hdr (firstn n ss) (csv_effect c w (OpenWriters (N.of_nat n))).
Proof.
  intros c hdr ss tail w n [[-> [-> E]]|E] Hn Ht; unfold csv_effect; rewrite E, Nat2N.id.
  - left. simpl in Hn. destruct n; [|lia]. simpl. auto.
  - right. unfold csv_truncate, csv_log. cbn [app].
    set (f := mkLine hdr true :: (csv_rows c 0 ss ++ tail)%list).
    assert (Lf: length f = S (length ss + length tail)).
    { unfold f. cbn [length]. rewrite app_length, csv_rows_len. reflexivity. }
    destruct (Nat.leb_spec (length f - 1) n).
    + assert (tail = []) by (destruct tail; auto; simpl in *; lia). subst tail. simpl in *.
      assert (length ss = n) by lia. subst n. rewrite firstn_all. unfold f. rewrite app_nil_r.
      split; reflexivity.
    + cbn [cfile needs_header]. unfold f. cbn [plus firstn]. split; [|reflexivity]. f_equal.
      rewrite firstn_app, csv_rows_len. replace (n - length ss)%nat with 0%nat by lia.
      rewrite firstn_O, app_nil_r. apply csv_rows_firstn.
Qed.

Lemma loop_hdr : forall c env hdr,
  (forall t r, csv_header c (fst (compute c t r)) = hdr) ->
  (forall n frag, crash (env n) = Some (CWrite false frag) -> frag = "") ->
  forall fuel n st r last, hdr_ok c hdr (fst (loop c env fuel n st r last)).
Proof.
  intros c env hdr H HW. induction fuel as [|fuel IH]; intros n st r last.
  - split; simpl; intuition discriminate.
  - cbn [loop]. destruct (split c r) as [r' sub]. specialize (H st sub) as Hs.
    destruct (compute c st sub) as [s0 st']. cbn [fst] in Hs.
    unfold do_save.
    destruct (crash (env n)) as [[|hd frag| |k|]|] eqn:CR;
    [ split; intros n' x; simpl; intuition discriminate
    | split; intros n' x; simpl; [intuition discriminate|]; intros hd' f [E|[E|[]]]; [discriminate|];
      inversion E; subst; (split; auto); intros ->; eapply HW; exact CR
    | split; intros n' x; simpl; intuition (try discriminate);
       match goal with H : Write _ _ = Write _ _ |- _ => inversion H; subst end; auto
    | | | ];
    ((destruct (has_nan (nan_policy c) s0 || exit_requested (env n));
     [|destruct (save_step_interval c =? 0)%N; [|destruct ((n =? iterations c - 1)%N || _)]]);
     destruct (make_archive n st');
     try (match goal with |- context [loop c env fuel ?a ?b ?d ?e] =>
           specialize (IH a b d e); destruct (loop c env fuel a b d e) as [bb oo] end; destruct IH as [IH1 IH2]);
     split; intros n' x; simpl; intuition (try discriminate);
     try (match goal with H : Write _ _ = Write _ _ |- _ => inversion H; subst end; auto; fail);
     eauto; try (eapply IH2; eauto)).
Qed.

Lemma csv_history : forall c init d hdr, well_formed c init -> NoDup (map fst d) -> no_ckpt (sname c) d ->
  (forall t r, csv_header c (fst (compute c t r)) = hdr) ->
  forall hs, Forall killable hs -> Forall header_whole hs ->
  let acts := acts_of c init d hs in
  exists ss tail, csv_end c hdr ss tail (csv_after c (mkCsvw [] true) acts) /\
    (next_step acts <= N.of_nat (length ss))%N /\
    (N.of_nat (length ss + length tail) <= iterations c)%N /\ (length tail <= 1)%nat /\
    (forall k, (k < N.of_nat (length ss))%N -> last_written acts k = nth_error ss (N.to_nat k)) /\
    (forall hs0 a, hs = (hs0 ++ [a])%list ->
       snd (run c (ckpt_after (sname c) d (acts_of c init d hs0)) init (akey a) (astart a) (aenv a)) <> Killed ->
       tail = [] /\ N.of_nat (length ss) = next_step acts).
Proof.
  intros c init d hdr W ND NC HH hs. induction hs as [|a hs IH] using rev_ind; intros K KH acts.
  - exists [], []. split; [left; auto|]. split; [cbn; lia|]. split; [simpl; lia|]. split; [simpl; lia|].
    split; [simpl; intros; lia|]. intros hs0 a E. destruct hs0; discriminate.
  - apply Forall_app in K. destruct K as [K Ka]. inversion Ka; subst.
    apply Forall_app in KH. destruct KH as [KH KHa]. inversion KHa; subst.
    destruct (IH K KH) as [ss [tail [E1 [E2 [E3 [E4 [E5 _]]]]]]]. clear IH.
    pose proof (history_inv c init d W ND NC hs K) as I. cbv zeta in I. rewrite resume_fst in I.
    unfold acts. rewrite acts_snoc. rewrite ckpt_after_run.
    remember (acts_of c init d hs) as pre.
    assert (FIN: forall acts' (ss' : list stats) (tail' : list line), 
       (snd (run c (run_events (sname c) d (evs pre)) init (akey a) (astart a) (aenv a)) <> Killed ->
        tail' = [] /\ N.of_nat (length ss') = next_step acts') ->
       forall hs0 a0, (hs ++ [a])%list = (hs0 ++ [a0])%list ->
       snd (run c (ckpt_after (sname c) d (acts_of c init d hs0)) init (akey a0) (astart a0) (aenv a0)) <> Killed ->
       tail' = [] /\ N.of_nat (length ss') = next_step acts').
    { intros acts' ss' tail' HF hs0 a0 Ea. apply app_inj_tail in Ea. destruct Ea as [-> ->].
      rewrite <- Heqpre, ckpt_after_run. exact HF. }
    destruct (run_shape c init d _ _ _ a W ND NC I) as [[E0 E]|[Hm [st1 [l [o [E [T CU]]]]]]];
      rewrite E in *; cbn [fst snd] in *.
    + exists ss, tail.
      assert (NS: next_step (pre ++ [Restored (next_step pre)])%list = next_step pre).
      { rewrite <- (resume_fst _ init), resume_app. cbn. apply resume_fst. }
      unfold csv_after. rewrite fold_left_app. rewrite NS. split; [exact E1|].
      split; auto. split; auto. split; auto. split.
      * intros k Hk. rewrite last_written_wr, wr_app, app_nil_r, <- last_written_wr. auto.
      * rewrite <- NS. apply FIN. intros _. rewrite NS. destruct tail; simpl in *; [split; auto; lia|lia].
    + remember (next_step pre) as m.
      assert (HO: hdr_ok c hdr l).
      { assert (HR: forall fuel n st r last, hdr_ok c hdr (fst (loop c (aenv a) fuel n st r last))).
        { apply loop_hdr; auto. }
        clear -E HR. unfold run in E. destruct (restore _ _ _ _) as [[n st]|]; [|discriminate].
        destruct (iterations c <=? n)%N; [discriminate|].
        destruct (if (n =? 0)%N then _ else _) as [s1 k1].
        match type of E with context [loop c ?e ?f ?n ?s ?k ?t] => specialize (HR f n s k t);
          destruct (loop c e f n s k t) as [l0 o0] end.
        inversion E; subst. exact HR. }
      assert (Hlen: length (firstn (N.to_nat m) ss) = N.to_nat m) by (rewrite firstn_length; lia).
      assert (A: csv_at c hdr (firstn (N.to_nat m) ss)
                  (csv_effect c (csv_after c (mkCsvw [] true) pre) (OpenWriters m))).
      { replace m with (N.of_nat (N.to_nat m)) at 2 by lia. eapply csv_open; eauto. lia. }
      destruct (trace_csv c init hdr _ _ _ _ T HO _ _ A ltac:(lia)) as [ss2 [tail2 [F1 [F2 [F3 [F4 F5]]]]]].
      destruct (trace_wr _ _ _ _ _ _ T) as [ss2' [G1 [G2 [G3 G4]]]].
      assert (ss2' = ss2).
      { rewrite F1 in G1. clear -G1. revert m ss2 G1. induction ss2'; destruct ss2; simpl; intros G1; try discriminate; auto.
        inversion G1; subst. f_equal. eapply IHss2'; eauto. }
      subst ss2'.
      exists (firstn (N.to_nat m) ss ++ ss2)%list, tail2.
      assert (NS: next_step (pre ++ Restored m :: OpenWriters m :: l)%list = fst (resume (m, init) l)).
      { rewrite <- (resume_fst _ init), resume_app.
        change (resume (resume (0%N, init) pre) (Restored m :: OpenWriters m :: l))
          with (resume (resume (0%N, init) pre) l). apply resume_indep. rewrite resume_fst. auto. }
      rewrite NS. split; [|split; [|split; [|split; [|split]]]].
      * unfold csv_after at 1. rewrite fold_left_app. exact F2.
      * rewrite app_length, Hlen. specialize (G3 (m, init) ltac:(simpl; lia)). lia.
      * rewrite app_length. lia.
      * exact F5.
      * intros k Hk.
        pose proof (known_extend pre ss (N.to_nat m) ss2 (Restored m :: OpenWriters m :: l) E5 ltac:(lia)) as KE.
        apply KE; auto. rewrite N2Nat.id. exact F1.
      * rewrite <- NS. apply FIN. intros NK. split; [auto|]. rewrite NS, (G4 NK Hm), app_length, Hlen. lia.
Qed.

(** ** HDF5 *)
Definition val (key : string) (s : stats) : list num :=
  match dict_get s key with Some v => v | None => [] end.

(** Each key of [keys] has exactly one entry per element of [ss]; nothing else is stored. *)
Definition aligned (keys : list string) (ss : list stats) (d : dsets) : Prop :=
  forall key, dict_get d key =
    match ss with
    | [] => None
    | _ => if existsb (String.eqb key) keys then Some (map (val key) ss) else None
    end.

Lemma h5_append_get : forall d key v key',
  dict_get (h5_append d key v) key' =
  if String.eqb key' key then Some ((match dict_get d key with Some vs => vs | None => [] end) ++ [v])%list
  else dict_get d key'.
Proof.
  intros d key v key'. unfold h5_append.
  destruct (String.eqb_spec key' key).
  - subst. destruct (dict_get d key); rewrite dict_get_set_same; reflexivity.
  - destruct (dict_get d key); rewrite dict_get_set_other; auto.
Qed.

Lemma h5_write_get : forall s d key, NoDup (map fst s) ->
  dict_get (h5_write d s) key =
  match dict_get s key with
  | Some v => Some ((match dict_get d key with Some vs => vs | None => [] end) ++ [v])%list
  | None => dict_get d key
  end.
Proof.
  unfold h5_write. induction s as [|[k v] s IH]; intros d key ND; auto.
  inversion ND; subst. cbn [fold_left fst snd]. rewrite IH by assumption. cbn [dict_get].
  rewrite h5_append_get. destruct (String.eqb_spec key k).
  - subst. destruct (dict_get s k) eqn:G.
    + exfalso. apply H1. apply dict_get_In in G. change k with (fst (k, l)). apply in_map. exact G.
    + reflexivity.
  - reflexivity.
Qed.

Lemma dict_get_keys : forall (s : stats) key,
  existsb (String.eqb key) (map fst s) = match dict_get s key with Some _ => true | None => false end.
Proof.
  induction s as [|[k v] s IH]; intros key; auto. cbn [map fst existsb dict_get]. rewrite IH. destruct (String.eqb key k); reflexivity.
Qed.

Lemma aligned_write : forall keys ss d s, NoDup keys -> map fst s = keys -> aligned keys ss d ->
  aligned keys (ss ++ [s])%list (h5_write d s).
Proof.
  intros keys ss d s ND <- A key. rewrite h5_write_get by assumption. rewrite (A key).
  rewrite dict_get_keys. unfold val at 1. 
  destruct ss as [|s0 ss].
  - cbn [app map]. destruct (dict_get s key) eqn:G; auto. unfold val. rewrite G. reflexivity.
  - cbn [app]. destruct (dict_get s key) eqn:G; auto.
    f_equal. cbn [map app]. f_equal. rewrite map_app. cbn [map]. f_equal. unfold val. rewrite G. reflexivity.
Qed.

Definition keys_ok (keys : list string) (l : list action) : Prop :=
  forall n x, In (Write n x) l -> map fst x = keys.

Lemma loop_keys : forall c env keys, (forall t r, map fst (fst (compute c t r)) = keys) ->
  forall fuel n st r last, keys_ok keys (fst (loop c env fuel n st r last)).
Proof.
  intros c env keys H. induction fuel as [|fuel IH]; intros n st r last.
  - intros n' x; simpl; intuition discriminate.
  - cbn [loop]. destruct (split c r) as [r' sub]. specialize (H st sub) as Hs.
    destruct (compute c st sub) as [s0 st']. cbn [fst] in Hs.
    unfold do_save.
    destruct (crash (env n)) as [[|hd frag| |k|]|] eqn:CR;
    [ intros n' x; simpl; intuition discriminate
    | intros n' x; simpl; intuition discriminate
    | intros n' x; simpl; intuition (try discriminate);
       match goal with H : Write _ _ = Write _ _ |- _ => inversion H; subst end; auto
    | | | ];
    ((destruct (has_nan (nan_policy c) s0 || exit_requested (env n));
     [|destruct (save_step_interval c =? 0)%N; [|destruct ((n =? iterations c - 1)%N || _)]]);
     destruct (make_archive n st');
     try (match goal with |- context [loop c env fuel ?a ?b ?d ?e] =>
           specialize (IH a b d e); destruct (loop c env fuel a b d e) as [bb oo] end);
     intros n' x; simpl; intuition (try discriminate);
     try (match goal with H : Write _ _ = Write _ _ |- _ => inversion H; subst end; auto; fail);
     eapply IH; eauto).
Qed.

Lemma run_keys : forall c files init (a : attempt c) keys, (forall t r, map fst (fst (compute c t r)) = keys) ->
  keys_ok keys (fst (run c files init (akey a) (astart a) (aenv a))).
Proof.
  intros c files init a keys H. unfold run. destruct (restore _ _ _ _) as [[n st]|]; [|intros ? ? []].
  destruct (iterations c <=? n)%N; [intros ? ? [E|[]]; discriminate|].
  destruct (if (n =? 0)%N then _ else _) as [s1 k1].
  match goal with |- context [loop c ?e ?f ?n ?s ?k ?t] =>
    pose proof (loop_keys c e keys H f n s k t) as K; destruct (loop c e f n s k t) as [l0 o0] end.
  intros n' x [E|[E|Hin]]; try discriminate. eapply K; eauto.
Qed.

(** The evaluation file after a list of writes. *)
Lemma eval_writes : forall keys l ss d n ss2, NoDup keys -> keys_ok keys l -> wr l = numbered n ss2 ->
  aligned keys ss d -> aligned keys (ss ++ ss2)%list (eval_after d l).
Proof.
  intros keys l. induction l as [|a l IH]; intros ss d n ss2 ND K Hw A.
  - destruct ss2; [|discriminate]. rewrite app_nil_r. exact A.
  - assert (K': keys_ok keys l) by (intros n' x H; eapply K; right; eauto).
    unfold eval_after. cbn [fold_left]. fold (eval_after (eval_effect d a) l).
    destruct a; try (eapply IH; eauto; fail).
    destruct ss2 as [|s2 ss2]; [discriminate|]. simpl in Hw. inversion Hw; subst.
    change (s2 :: ss2) with ([s2] ++ ss2)%list. rewrite app_assoc.
    eapply IH; eauto. apply aligned_write; auto. eapply K. left. reflexivity.
Qed.

(** The log file: writes between open and close. *)
Definition no_close (l : list action) := forall n, ~ In CloseWriters l /\ ~ In (OpenWriters n) l.

Lemma h5_mem_writes : forall l d m, ~ In CloseWriters l -> (forall n, ~ In (OpenWriters n) l) ->
  fold_left h5_effect l (mkH5 d (Some m)) = mkH5 d (Some (eval_after m l)).
Proof.
  induction l as [|a l IH]; intros d m H1 H2; auto.
  cbn [fold_left]. unfold eval_after. cbn [fold_left]. fold (eval_after (eval_effect m a) l).
  rewrite <- IH; [|intro H; apply H1; right; exact H|intros n H; apply (H2 n); right; exact H].
  f_equal. destruct a; simpl; auto.
  - exfalso. apply (H2 n). left; reflexivity.
  - exfalso. apply H1. left; reflexivity.
Qed.

Lemma trace_close : forall c init n st l o, trace c init n st l o -> o <> Killed ->
  exists l1 l2, l = (l1 ++ CloseWriters :: l2)%list /\ ~ In CloseWriters l1 /\
    (forall k, ~ In (OpenWriters k) l1) /\ (forall a, In a l2 -> exists s t, a = Save s t).
Proof.
  intros c init n st l o T. induction T; intros NK; try congruence.
  - exists [], []. repeat split; auto; intros a [].
  - exists [Exec n; Write n s], [Save n st']. repeat split; try (simpl; intros; intuition discriminate).
    intros a [<-|[]]. eauto.
  - destruct (IHT NK) as [l1 [l2 [-> [H1 [H2 H3]]]]].
    exists (Exec n :: Write n s :: l1)%list, l2. repeat split; auto.
    + intros [E|[E|Hin]]; try discriminate; auto.
    + intros k [E|[E|Hin]]; try discriminate; eapply H2; eauto.
  - destruct (IHT NK) as [l1 [l2 [-> [H1 [H2 H3]]]]].
    exists (Exec n :: Write n s :: Save n st' :: l1)%list, l2. repeat split; auto.
    + intros [E|[E|[E|Hin]]]; try discriminate; auto.
    + intros k [E|[E|[E|Hin]]]; try discriminate; eapply H2; eauto.
Qed.

Lemma h5_saves : forall l w, (forall a, In a l -> exists s t, a = Save s t) -> fold_left h5_effect l w = w.
Proof.
  induction l as [|a l IH]; intros w H; auto. cbn [fold_left].
  destruct (H a (or_introl eq_refl)) as [s [t ->]]. apply IH. intros a' Ha. apply H. right; exact Ha.
Qed.

Lemma truncate_aligned : forall keys ss d, aligned keys ss d -> NoDup (map fst d) ->
  h5_truncate (length ss) d = d.
Proof.
  intros keys ss d A ND. unfold h5_truncate. rewrite <- (map_id d) at 2. apply map_ext_in.
  intros [k vs] Hin. cbn [fst snd]. f_equal.
  apply In_dict_get in Hin; auto. rewrite (A k) in Hin. destruct ss as [|s ss]; [discriminate|].
  destruct (existsb (String.eqb k) keys); [|discriminate].
  assert (L: length vs = length (s :: ss)).
  { assert (vs = map (val k) (s :: ss)) as -> by congruence. apply map_length. }
  rewrite L, Nat.ltb_irrefl. reflexivity.
Qed.

Lemma h5_write_NoDup : forall s d, NoDup (map fst d) -> NoDup (map fst (h5_write d s)).
Proof.
  unfold h5_write. induction s as [|[k v] s IH]; intros d ND; auto. cbn [fold_left fst snd].
  apply IH. unfold h5_append. destruct (dict_get d k); apply dict_set_NoDup; auto.
Qed.
Lemma eval_NoDup : forall l d, NoDup (map fst d) -> NoDup (map fst (eval_after d l)).
Proof.
  unfold eval_after. induction l as [|a l IH]; intros d ND; auto. cbn [fold_left]. apply IH.
  destruct a; simpl; auto. apply h5_write_NoDup; auto.
Qed.
Lemma eval_no_write : forall l2 d, (forall a, In a l2 -> exists s t, a = Save s t) -> eval_after d l2 = d.
Proof.
  unfold eval_after. induction l2 as [|a l IH]; intros d H; auto. cbn [fold_left].
  destruct (H a (or_introl eq_refl)) as [s [t ->]]. apply IH. intros a' Ha. apply H. right; exact Ha.
Qed.

(** In graceful histories the log and the evaluation file both equal the plain sequence of writes. *)
Lemma h5_history : forall c init d keys, well_formed c init -> NoDup (map fst d) -> no_ckpt (sname c) d ->
  NoDup keys -> (forall t r, map fst (fst (compute c t r)) = keys) ->
  forall hs, Forall graceful hs ->
  let acts := acts_of c init d hs in
  exists ss, N.of_nat (length ss) = next_step acts /\
    (forall k, (k < next_step acts)%N -> last_written acts k = nth_error ss (N.to_nat k)) /\
    aligned keys ss (eval_after [] acts) /\
    fold_left h5_effect acts (mkH5 [] None) = mkH5 (eval_after [] acts) None.
Proof.
  intros c init d keys W ND NC NK HK hs. induction hs as [|a hs IH] using rev_ind; intros G acts.
  - exists []. split; [reflexivity|]. split; [cbn; intros; lia|]. split; [|reflexivity]. intro key. reflexivity.
  - apply Forall_app in G. destruct G as [G Ga]. inversion Ga; subst.
    destruct (IH G) as [ss [E1 [E2 [E3 E4]]]]. clear IH.
    assert (K: Forall killable hs).
    { eapply Forall_impl; [|exact G]. apply graceful_killable. }
    pose proof (history_inv c init d W ND NC hs K) as I. cbv zeta in I. rewrite resume_fst in I.
    unfold acts. rewrite acts_snoc. rewrite ckpt_after_run.
    remember (acts_of c init d hs) as pre.
    pose proof (run_not_killed c (run_events (sname c) d (evs pre)) init a H1) as KK.
    pose proof (run_keys c (run_events (sname c) d (evs pre)) init a keys HK) as RK.
    destruct (run_shape c init d _ _ _ a W ND NC I) as [[E0 E]|[Hm [st1 [l [o [E [T CU]]]]]]];
      rewrite E in *; cbn [fst snd] in *.
    + exists ss.
      assert (NS: next_step (pre ++ [Restored (next_step pre)])%list = next_step pre).
      { rewrite <- (resume_fst _ init), resume_app. cbn. apply resume_fst. }
      rewrite NS. unfold eval_after. rewrite !fold_left_app. split; auto. split; [|split; [exact E3|]].
      * intros k Hk. rewrite last_written_wr, wr_app, app_nil_r, <- last_written_wr. auto.
      * rewrite E4. reflexivity.
    + remember (next_step pre) as m.
      destruct (trace_wr _ _ _ _ _ _ T) as [ss2 [G1 [G2 [G3 G4]]]].
      assert (NS: next_step (pre ++ Restored m :: OpenWriters m :: l)%list = (m + N.of_nat (length ss2))%N).
      { rewrite <- (resume_fst _ init), resume_app.
        change (resume (resume (0%N, init) pre) (Restored m :: OpenWriters m :: l))
          with (resume (resume (0%N, init) pre) l). apply G4; auto. }
      exists (ss ++ ss2)%list. rewrite NS. split; [rewrite app_length; lia|]. split; [|split].
      * intros k Hk.
        pose proof (known_extend pre ss (N.to_nat m) ss2 (Restored m :: OpenWriters m :: l)) as KE.
        replace (firstn (N.to_nat m) ss) with ss in KE by (rewrite firstn_all2; auto; lia).
        apply KE; try lia.
        -- intros k' Hk'. apply E2. lia.
        -- rewrite N2Nat.id. exact G1.
        -- rewrite app_length. lia.
      * unfold eval_after. rewrite fold_left_app.
        change (aligned keys (ss ++ ss2) (eval_after (eval_after [] pre) (Restored m :: OpenWriters m :: l))).
        eapply eval_writes; eauto.
      * rewrite fold_left_app, E4. cbn [fold_left h5_effect hdisk].
        replace (N.to_nat m) with (length ss) by lia.
        rewrite (truncate_aligned keys) by (auto; apply eval_NoDup; constructor).
        destruct (trace_close _ _ _ _ _ _ T KK) as [l1 [l2 [-> [C1 [C2 C3]]]]].
        rewrite fold_left_app, h5_mem_writes by assumption. cbn [fold_left h5_effect hmem].
        rewrite h5_saves by assumption. f_equal.
        unfold eval_after. rewrite !fold_left_app. cbn [fold_left eval_effect].
        rewrite !fold_left_app. cbn [fold_left eval_effect].
        symmetry. apply eval_no_write. exact C3.
Qed.

(** ** HDF5 with kills *)
(** Like [aligned], but a file cut back to no rows may keep its empty datasets. *)
Definition rows (keys : list string) (ss : list stats) (d : dsets) : Prop :=
  forall key, if existsb (String.eqb key) keys
              then dict_get d key = Some (map (val key) ss) \/ ss = [] /\ dict_get d key = None
              else dict_get d key = None.

Lemma rows_write : forall keys ss d s, NoDup keys -> map fst s = keys -> rows keys ss d ->
  rows keys (ss ++ [s])%list (h5_write d s).
Proof.
  intros keys ss d s ND <- A key. specialize (A key). rewrite h5_write_get by assumption.
  pose proof (dict_get_keys s key) as DK.
  destruct (existsb (String.eqb key) (map fst s)) eqn:X.
  - left. destruct (dict_get s key) eqn:G.
    + rewrite map_app. cbn [map]. unfold val at 2. rewrite G.
      destruct A as [->|[-> ->]]; reflexivity.
    + discriminate DK.
  - destruct (dict_get s key) eqn:G; [discriminate DK|]. exact A.
Qed.

Lemma rows_writes : forall keys l ss d n ss2, NoDup keys -> keys_ok keys l -> wr l = numbered n ss2 ->
  rows keys ss d -> rows keys (ss ++ ss2)%list (eval_after d l).
Proof.
  intros keys l. induction l as [|a l IH]; intros ss d n ss2 ND K Hw A.
  - destruct ss2; [|discriminate]. rewrite app_nil_r. exact A.
  - assert (K': keys_ok keys l) by (intros n' x H; eapply K; right; eauto).
    unfold eval_after. cbn [fold_left]. fold (eval_after (eval_effect d a) l).
    destruct a; try (eapply IH; eauto; fail).
    destruct ss2 as [|s2 ss2]; [discriminate|]. simpl in Hw. inversion Hw; subst.
    change (s2 :: ss2) with ([s2] ++ ss2)%list. rewrite app_assoc.
    eapply IH; eauto. apply rows_write; auto. eapply K. left. reflexivity.
Qed.

Lemma h5_truncate_get : forall n d key, dict_get (h5_truncate n d) key = option_map (firstn n) (dict_get d key).
Proof.
  intros n d key. unfold h5_truncate. induction d as [|[k vs] d IH]; auto. cbn [map dict_get fst snd].
  destruct (String.eqb_spec key k); auto. cbn [option_map]. f_equal.
  destruct (Nat.ltb_spec n (length vs)); auto. symmetry. apply firstn_all2. lia.
Qed.
Lemma rows_truncate : forall keys ss d n, rows keys ss d -> rows keys (firstn n ss) (h5_truncate n d).
Proof.
  intros keys ss d n A key. specialize (A key). rewrite h5_truncate_get.
  destruct (existsb (String.eqb key) keys).
  - destruct A as [->|[-> ->]].
    + left. cbn [option_map]. rewrite firstn_map. reflexivity.
    + right. rewrite firstn_nil. auto.
  - rewrite A. reflexivity.
Qed.

(** A trace that reaches the close, split there; and one that does not. *)
Lemma trace_close2 : forall c init n st l o, trace c init n st l o ->
  (exists l1 l2, l = (l1 ++ CloseWriters :: l2)%list /\ ~ In CloseWriters l1 /\
    (forall k, ~ In (OpenWriters k) l1) /\
    (forall a, In a l2 -> (exists s t, a = Save s t) \/ (exists s t k, a = SaveCut s t k))) \/
  (o = Killed /\ ~ In CloseWriters l /\ (forall k, ~ In (OpenWriters k) l)).
Proof.
  intros c init n st l o T.
  induction T as [st F|n st L|n st s hd frag L|n st s L|n st s st' L F|n st s st' L F|n st s st' k L F
    |n st s st' l o L F T IH|n st s st' l o L F T IH|n st s st' L F|n st s st' k L F];
    try (right; split; [reflexivity|]; split; simpl; intros; intuition discriminate).
  - left. exists [], []. repeat split; auto; intros a [].
  - left. exists [Exec n; Write n s], [Save n st']. repeat split; try (simpl; intros; intuition discriminate).
    intros a [<-|[]]; eauto.
  - left. exists [Exec n; Write n s], [Save n st']. repeat split; try (simpl; intros; intuition discriminate).
    intros a [<-|[]]; eauto.
  - left. exists [Exec n; Write n s], [SaveCut n st' k]. repeat split; try (simpl; intros; intuition discriminate).
    intros a [<-|[]]; eauto 6.
  - destruct IH as [[l1 [l2 [-> [H1 [H2 H3]]]]]|[-> [H1 H2]]].
    + left. exists (Exec n :: Write n s :: l1)%list, l2. repeat split; auto.
      * intros [E|[E|Hin]]; try discriminate; auto.
      * intros k [E|[E|Hin]]; try discriminate; eapply H2; eauto.
    + right. split; auto. split.
      * intros [E|[E|Hin]]; try discriminate; auto.
      * intros k [E|[E|Hin]]; try discriminate; eapply H2; eauto.
  - destruct IH as [[l1 [l2 [-> [H1 [H2 H3]]]]]|[-> [H1 H2]]].
    + left. exists (Exec n :: Write n s :: Save n st' :: l1)%list, l2. repeat split; auto.
      * intros [E|[E|[E|Hin]]]; try discriminate; auto.
      * intros k [E|[E|[E|Hin]]]; try discriminate; eapply H2; eauto.
    + right. split; auto. split.
      * intros [E|[E|[E|Hin]]]; try discriminate; auto.
      * intros k [E|[E|[E|Hin]]]; try discriminate; eapply H2; eauto.
Qed.

Lemma h5_after_close : forall l w, (forall a, In a l -> (exists s t, a = Save s t) \/ (exists s t k, a = SaveCut s t k)) ->
  fold_left h5_effect l w = w.
Proof.
  induction l as [|a l IH]; intros w H; auto. cbn [fold_left].
  destruct (H a (or_introl eq_refl)) as [[s [t ->]]|[s [t [k ->]]]];
    apply IH; intros a' Ha; apply H; right; exact Ha.
Qed.
Lemma wr_saves : forall l, (forall a, In a l -> (exists s t, a = Save s t) \/ (exists s t k, a = SaveCut s t k)) -> wr l = [].
Proof.
  induction l as [|a l IH]; intros H; auto.
  destruct (H a (or_introl eq_refl)) as [[s [t ->]]|[s [t [k ->]]]]; simpl;
    apply IH; intros a' Ha; apply H; right; exact Ha.
Qed.

Lemma resume_no_save : forall l r, (forall s t, ~ In (Save s t) l) -> resume r l = r.
Proof.
  unfold resume. induction l as [|a l IH]; intros r H; auto. cbn [fold_left].
  rewrite IH by (intros s t K; apply (H s t); right; exact K).
  destruct a; auto. exfalso. eapply H. left. reflexivity.
Qed.

Lemma history_snoc : forall c init hs d a,
  history c d init (hs ++ [a])%list =
  (history c d init hs ++
   [run c (ckpt_after (sname c) d (acts_of c init d hs)) init (akey a) (astart a) (aenv a)])%list.
Proof.
  intros c init hs. unfold acts_of. induction hs as [|b hs IH]; intros d a.
  - reflexivity.
  - cbn [app history]. rewrite IH. cbn [app]. f_equal. f_equal.
    cbn [map concat fst all_actions]. unfold all_actions. cbn [map concat].
    unfold ckpt_after. rewrite fold_left_app. reflexivity.
Qed.

Lemma h5_history_kill : forall c init d keys, well_formed c init -> NoDup (map fst d) -> no_ckpt (sname c) d ->
  NoDup keys -> (forall t r, map fst (fst (compute c t r)) = keys) ->
  forall hs, Forall killable hs -> Forall harmless (history c d init hs) ->
  let acts := acts_of c init d hs in
  exists ss, (next_step acts <= N.of_nat (length ss) <= iterations c)%N /\
    (forall k, (k < next_step acts)%N -> last_written acts k = nth_error ss (N.to_nat k)) /\
    rows keys ss (hdisk (fold_left h5_effect acts (mkH5 [] None))) /\
    (forall hs0 a, hs = (hs0 ++ [a])%list ->
       snd (run c (ckpt_after (sname c) d (acts_of c init d hs0)) init (akey a) (astart a) (aenv a)) <> Killed ->
       N.of_nat (length ss) = next_step acts).
Proof.
  intros c init d keys W ND NC NK HK hs. induction hs as [|a hs IH] using rev_ind; intros K HL acts.
  - exists []. split; [cbn; lia|]. split; [cbn; intros; lia|].
    split; [intro key; cbn; destruct (existsb _ _); auto|]. intros hs0 a E. destruct hs0; discriminate.
  - apply Forall_app in K. destruct K as [K Ka]. inversion Ka; subst.
    rewrite history_snoc in HL. apply Forall_app in HL. destruct HL as [HL HLa].
    apply Forall_inv in HLa.
    destruct (IH K HL) as [ss [E1 [E2 [E3 _]]]]. clear IH.
    pose proof (history_inv c init d W ND NC hs K) as I. cbv zeta in I. rewrite resume_fst in I.
    unfold acts. rewrite acts_snoc. rewrite ckpt_after_run in *.
    remember (acts_of c init d hs) as pre.
    assert (FIN: forall acts' (ss' : list stats),
       (snd (run c (run_events (sname c) d (evs pre)) init (akey a) (astart a) (aenv a)) <> Killed ->
        N.of_nat (length ss') = next_step acts') ->
       forall hs0 a0, (hs ++ [a])%list = (hs0 ++ [a0])%list ->
       snd (run c (ckpt_after (sname c) d (acts_of c init d hs0)) init (akey a0) (astart a0) (aenv a0)) <> Killed ->
       N.of_nat (length ss') = next_step acts').
    { intros acts' ss' HF hs0 a0 Ea. apply app_inj_tail in Ea. destruct Ea as [-> ->].
      rewrite <- Heqpre, ckpt_after_run. exact HF. }
    pose proof (run_keys c (run_events (sname c) d (evs pre)) init a keys HK) as RK.
    destruct (run_shape c init d _ _ _ a W ND NC I) as [[E0 E]|[Hm [st1 [l [o [E [T CU]]]]]]];
      rewrite E in *; cbn [fst snd] in *.
    + exists ss.
      assert (NS: next_step (pre ++ [Restored (next_step pre)])%list = next_step pre).
      { rewrite <- (resume_fst _ init), resume_app. cbn. apply resume_fst. }
      rewrite NS. split; auto. split; [|split].
      * intros k Hk. rewrite last_written_wr, wr_app, app_nil_r, <- last_written_wr. auto.
      * rewrite fold_left_app. exact E3.
      * rewrite <- NS. apply FIN. intros _. rewrite NS. lia.
    + remember (next_step pre) as m.
      destruct (trace_wr _ _ _ _ _ _ T) as [ss2 [G1 [G2 [G3 G4]]]].
      assert (NS: next_step (pre ++ Restored m :: OpenWriters m :: l)%list = fst (resume (m, init) l)).
      { rewrite <- (resume_fst _ init), resume_app.
        change (resume (resume (0%N, init) pre) (Restored m :: OpenWriters m :: l))
          with (resume (resume (0%N, init) pre) l). apply resume_indep. rewrite resume_fst. auto. }
      assert (Hlen: length (firstn (N.to_nat m) ss) = N.to_nat m) by (rewrite firstn_length; lia).
      assert (KN: forall k, (k < N.of_nat (length (firstn (N.to_nat m) ss ++ ss2)))%N ->
                  last_written (pre ++ Restored m :: OpenWriters m :: l)%list k =
                  nth_error (firstn (N.to_nat m) ss ++ ss2)%list (N.to_nat k)).
      { pose proof (known_extend pre (firstn (N.to_nat m) ss) (N.to_nat m) ss2 (Restored m :: OpenWriters m :: l)) as KE.
        rewrite firstn_firstn, Nat.min_id in KE. apply KE.
        - intros k' Hk'. rewrite Hlen in Hk'. rewrite E2 by lia.
          rewrite <- (firstn_skipn (N.to_nat m) ss) at 1. rewrite nth_error_app1 by lia. reflexivity.
        - lia.
        - rewrite N2Nat.id. exact G1. }
      rewrite fold_left_app. cbn [fold_left h5_effect]. 
      set (w := fold_left h5_effect pre (mkH5 [] None)) in *.
      destruct (trace_close2 _ _ _ _ _ _ T) as [[l1 [l2 [El [C1 [C2 C3]]]]]|[-> [C1 C2]]].
      * (* closed *)
        exists (firstn (N.to_nat m) ss ++ ss2)%list. rewrite NS.
        specialize (G3 (m, init) ltac:(simpl; lia)).
        split; [rewrite app_length, Hlen; lia|]. split; [|split].
        -- intros k Hk. apply KN. rewrite app_length, Hlen. lia.
        -- rewrite El, fold_left_app, h5_mem_writes by assumption. cbn [fold_left h5_effect hmem].
           rewrite h5_after_close by assumption. cbn [hdisk].
           eapply rows_writes with (n := m); eauto.
           ++ intros n' x Hin. eapply RK. right. right. rewrite El. apply in_or_app. left. exact Hin.
           ++ rewrite <- G1, El, wr_app. cbn [wr]. 
              change (CloseWriters :: l2) with ([CloseWriters] ++ l2)%list. rewrite wr_app.
              rewrite (wr_saves l2) by exact C3. cbn. rewrite app_nil_r. reflexivity.
           ++ apply rows_truncate. exact E3.
        -- rewrite <- NS. apply FIN. intros NKL. rewrite NS, (G4 NKL Hm), app_length, Hlen. lia.
      * (* killed before the close, without a completed checkpoint *)
        destruct HLa as [HC|HS]; [reflexivity| |].
        { destruct HC as [X|[X|X]]; try discriminate. contradiction. }
        exists ss. rewrite NS.
        rewrite resume_no_save by (intros s t Hin; apply (HS s t); right; right; exact Hin). cbn [fst].
        split; auto. split; [|split].
        -- intros k Hk. rewrite KN by (rewrite app_length, Hlen; lia).
           rewrite nth_error_app1 by lia.
           rewrite <- (firstn_skipn (N.to_nat m) ss) at 2. rewrite nth_error_app1 by lia. reflexivity.
        -- rewrite h5_mem_writes by assumption. exact E3.
        -- intros hs0 a0 Ea NKL. exfalso. apply app_inj_tail in Ea. destruct Ea as [-> ->].
           rewrite <- Heqpre, ckpt_after_run, E in NKL. apply NKL. reflexivity.
Qed.
