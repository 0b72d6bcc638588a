(** C50: the reported step time is the mean duration of the steps after warm-up. *)
From Coq Require Import List QArith ZArith Lia.
From Verif Require Import Timer_Model.
Import ListNotations.
Open Scope Z_scope.

(** Specification: the durations of the steps whose end times are [ends], the
    first step having begun at [begin]; their mean. *)
Fixpoint durations (begin : Q) (ends : list Q) : list Q :=
  match ends with [] => [] | e :: rest => (e - begin)%Q :: durations e rest end.
Definition mean (ds : list Q) : Q := (fold_right Qplus 0 ds / inject_Z (Z.of_nat (length ds)))%Q.

Definition run (t : tracker) (cs : list call) : tracker := fold_left apply cs t.

Lemma durations_skipn n : forall b ends, skipn n (durations b ends) = durations (last (firstn n ends) b) (skipn n ends).
Proof.
  induction n; intros b ends; [destruct ends; reflexivity|].
  destruct ends as [|e rest]; [reflexivity|]. simpl skipn. rewrite IHn.
  simpl firstn. f_equal. destruct (firstn n rest) eqn:E; [reflexivity|].
  symmetry. change (last (e :: q :: l) b) with (last (q :: l) b).
  clear. revert q. induction l; intros; [reflexivity|]. simpl in *. apply IHl.
Qed.

Lemma durations_sum b ends : (fold_right Qplus 0 (durations b ends) == last ends b - b)%Q.
Proof.
  revert b; induction ends as [|e rest IH]; intros b; [simpl; ring|].
  simpl fold_right. rewrite IH.
  replace (last (e :: rest) b) with (last rest e). ring.
  destruct rest; [reflexivity|]. change (last (e :: q :: rest) b) with (last (q :: rest) b).
  clear. revert q. induction rest; intros; [reflexivity|]. simpl in *. apply IHrest.
Qed.

Lemma length_durations b ends : length (durations b ends) = length ends.
Proof. revert b; induction ends; simpl; auto. Qed.

Lemma run_ticks w b ends : 0 <= w ->
  let t := run (start {| warmup_steps := w; boundary_time := None; last_time := None; ticks := 0 |} b)
               (map CTick ends) in
  warmup_steps t = w /\
  boundary_time t = Some (last (firstn (Z.to_nat w) ends) b) /\
  last_time t = (match ends with [] => None | _ => Some (last ends b) end) /\
  ticks t = Z.of_nat (length ends).
Proof.
  intros Hw. induction ends as [|e ends IH] using rev_ind; simpl.
  - rewrite firstn_nil. repeat split; auto.
  - rewrite map_app. unfold run in *. rewrite fold_left_app. simpl.
    set (t := fold_left apply (map CTick ends) _) in *. destruct IH as (A & B & C & D).
    unfold tick; simpl. rewrite app_length. simpl. rewrite D, A.
    repeat split; try lia.
    + destruct (Z.leb_spec (Z.of_nat (length ends) + 1) w).
      * rewrite firstn_all2 by (rewrite app_length; simpl; lia). rewrite last_last. auto.
      * rewrite B. f_equal. rewrite firstn_app.
        replace (Z.to_nat w - length ends)%nat with 0%nat by lia. simpl. rewrite app_nil_r. reflexivity.
    + destruct (ends ++ [e])%list eqn:E; [destruct ends; discriminate|].
      rewrite <- E, last_last. reflexivity.
Qed.

(** Main statement: whatever happened before ([history]), after [start] at time [b]
    and ticks at times [ends] the tracker reports the mean of the durations of the
    steps after the first [w], and reports nothing iff there is no such step. *)
Theorem C50_average_is_mean_after_warmup : forall w now0 t0 history b ends,
  make w now0 = Some t0 ->
  let t := run (run t0 history) (CStart b :: map CTick ends) in
  match time_per_step t with
  | Some avg => (avg == mean (skipn (Z.to_nat w) (durations b ends)))%Q /\
                skipn (Z.to_nat w) (durations b ends) <> []
  | None => skipn (Z.to_nat w) (durations b ends) = []
  end.
Proof.
  intros w now0 t0 history b ends Hm t. unfold make in Hm.
  destruct (Z.ltb_spec w 0); [discriminate|]. injection Hm as Hm.
  assert (Hw : warmup_steps (run t0 history) = w).
  { subst t0. clear t ends b. unfold run.
    set (t0 := start _ _). assert (E : warmup_steps t0 = w) by reflexivity. clearbody t0.
    revert t0 E. induction history as [|[now|now] h IH]; simpl; intros; auto; apply IH; auto. }
  assert (Et : t = run (start {| warmup_steps := w; boundary_time := None; last_time := None; ticks := 0 |} b) (map CTick ends)).
  { unfold t, run. simpl. f_equal. unfold start. unfold run in Hw. rewrite Hw. reflexivity. }
  destruct (run_ticks w b ends H) as (A & B & C & D). rewrite <- Et in A, B, C, D.
  unfold time_per_step. rewrite A, B, C, D.
  pose proof (length_durations b ends) as Hl.
  destruct ends as [|e rest] eqn:Ee.
  { simpl. destruct (Z.to_nat w); reflexivity. }
  rewrite <- Ee in *. replace (match ends with [] => None | _ => Some (last ends b) end) with (Some (last ends b)) by (rewrite Ee; reflexivity).
  destruct (Z.ltb_spec 0 (Z.of_nat (length ends) - w)).
  - split.
    + unfold mean. rewrite durations_skipn, durations_sum, length_durations, skipn_length.
      replace (Z.of_nat (length ends - Z.to_nat w)) with (Z.of_nat (length ends) - w) by lia.
      replace (last (skipn (Z.to_nat w) ends) (last (firstn (Z.to_nat w) ends) b)) with (last ends b); [reflexivity|].
      rewrite <- (firstn_skipn (Z.to_nat w) ends) at 1.
      assert (Hn : skipn (Z.to_nat w) ends <> []).
      { intros E. apply (f_equal (@length Q)) in E. rewrite skipn_length in E. simpl in E. lia. }
      revert Hn. generalize (skipn (Z.to_nat w) ends) as s, (firstn (Z.to_nat w) ends) as f. clear.
      intros s f Hn. destruct (exists_last Hn) as (s' & x & ->). rewrite app_assoc, !last_last. reflexivity.
    + intros E. apply (f_equal (@length Q)) in E. rewrite skipn_length, Hl in E. simpl in E. lia.
  - rewrite skipn_all2; auto. lia.
Qed.

(** A negative warm-up is refused, any other accepted. *)
Theorem C50_negative_warmup_refused : forall w now, make w now = None <-> w < 0.
Proof. intros. unfold make. destruct (Z.ltb_spec w 0); split; intros; auto; [discriminate|lia]. Qed.

Example C50_example : exists t0, make 1 0 = Some t0 /\
  match time_per_step (run t0 (CStart 0 :: map CTick [5; 6; 8]%Q)) with Some q => (q == 3 # 2)%Q | None => False end.
Proof. eexists. split; [reflexivity|]. reflexivity. Qed.

Print Assumptions C50_average_is_mean_after_warmup.
