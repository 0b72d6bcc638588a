(** C90: limits, and cases that meet the hypotheses. *)
From Coq Require Import String Ascii List Bool Arith NArith Lia Permutation.
From Verif Require Import Roll_Model Roll_Spec Roll_Props Rem_Model Rem_Spec Rem_Names Rem_Props Rem_Calm.
Import ListNotations.
Open Scope list_scope.

Definition P : string := "dmc_data".
Local Notation hist h := (history nat P 2 0 xiter xrej h (begins nat 0 xiter xrej)).
Definition lost {S} (w : world S) : world S := {| loc := []; rem := rem w; rloc := []; rrem := rrem w; proc := None |}.
Definition go (h : handler) (how : transfer) (w : world nat) : world nat :=
  match proc w with
  | Some m => let r := run nat 2 Good [] m (cur m + t m + 1) in with_proc nat (stored_as nat P w h how (snd r)) (if still nat h how (snd r) then Some (fst r) else None)
  | None => w
  end.
Definition empty : world nat := {| loc := []; rem := []; rloc := []; rrem := []; proc := None |}.
Definition fresh : world nat := {| loc := []; rem := []; rloc := []; rrem := []; proc := Some {| t := 0; cur := 0; rows := []; ws := fun _ => None; unsafe_step := None; safe_step := None |} |}.
Lemma empty_begins : begins nat 0 xiter xrej empty. Proof. split; [reflexivity|]. intros n d I. destruct I. Qed.
Lemma fresh_started h : started nat 0 P h empty fresh.
Proof. apply (Started nat 0 P h empty [] [] [] []); [destruct h; cbn; constructor..|constructor|constructor]. Qed.
Lemma fresh_hist h : hist h fresh.
Proof.
  eapply Later; [apply First, empty_begins|]. apply (Start nat P 2 0 xiter xrej h empty Done Done [] [] [] []); [reflexivity|destruct h; cbn; constructor..|constructor|constructor].
Qed.
Lemma go_hist h how w : hist h w -> hist h (go h how w).
Proof. intros H. unfold go. destruct (proc w) as [m|] eqn:PM; [|exact H]. eapply Later; [exact H|]. apply (Succeed nat P 2 0 xiter xrej h w m _ how PM). reflexivity. Qed.
Fixpoint runs (h : handler) (hows : list transfer) (w : world nat) : world nat := match hows with [] => w | how :: r => runs h r (go h how w) end.
Lemma runs_hist h : forall hows w, hist h w -> hist h (runs h hows w).
Proof. induction hows as [|how r IH]; intros w H; [exact H|]. cbn. apply IH, go_hist, H. Qed.

(** ** Nothing remote, unnoticed *)
Lemma go_refused h w m : h <> Local -> proc w = Some m -> rem w = [] -> rrem w = [] -> exists m', proc (go h Refused w) = Some m' /\ t m' = t m + 1 /\ rem (go h Refused w) = [] /\ rrem (go h Refused w) = [].
Proof.
  intros NL PM R RR. unfold go. rewrite PM. set (r := run nat 2 Good [] m _). assert (T : t (fst r) = t m + 1).
  { unfold r, run. destruct (Nat.eqb (t m mod 2) 0); [|reflexivity]. destruct (match data_at m (unsafe_step m) with Some _ => true | None => false end); reflexivity. }
  exists (fst r). destruct (snd r) as [|[d|k] l]; cbn [still stored_as with_proc proc rem rrem upload snd fst goes_on]; (split; [destruct h; [reflexivity|contradiction|reflexivity]|]); (split; [exact T|]); (split; [|exact RR]); rewrite R; destruct h; reflexivity.
Qed.
(** Full statement: data of a run with a remote save path survive the loss of the machine.  False with the default handler, and
    with hdfs when its commands fail: however long the run, nothing is remote, no error is raised, and it starts again from step 0. *)
Theorem C90_remote_copy_refuted : forall h, h <> Local -> forall n, exists w m, hist h w /\ proc w = Some m /\ t m = n /\ rem w = [] /\
  forall w', started nat 0 P h (lost w) w' -> exists m', proc w' = Some m' /\ t m' = 0 /\ rows m' = [].
Proof.
  intros h NL n. assert (X : exists w m, hist h w /\ proc w = Some m /\ t m = n /\ rem w = [] /\ rrem w = []).
  { induction n as [|n IH]; [exists fresh; eexists; split; [apply fresh_hist|]; repeat split; reflexivity|]. destruct IH as [w [m [H [PM [T [R RR]]]]]]. destruct (go_refused h w m NL PM R RR) as [m' [A [B [D E]]]].
    exists (go h Refused w), m'. split; [apply go_hist, H|]. split; [exact A|]. split; [lia|]. split; assumption. }
  destruct X as [w [m [H [PM [T [R RR]]]]]]. exists w, m. split; [exact H|]. split; [exact PM|]. split; [exact T|]. split; [exact R|]. intros w' ST. inversion ST as [w1 l1 l2 l3 l4 L1 L2 loc' rloc' L3 L4 E1 E2]. subst w1. unfold lost in L1, L2. cbn [rem rrem] in L1, L2. rewrite R in L1. rewrite RR in L2.
  assert (E3 : l1 = []) by (destruct h; [exact L1|apply Permutation_nil, L1..]). assert (E4 : l2 = []) by (destruct h; [exact L2|apply Permutation_nil, L2..]). subst l1 l2. cbn in L3, L4. apply Permutation_nil in L3. apply Permutation_nil in L4. subst l3 l4. eexists. split; [reflexivity|]. split; reflexivity.
Qed.
(** ** Good remote data, and a restart from step 0 because one download failed *)
Definition w5 : world nat := runs Hdfs [Uploaded; Uploaded; Uploaded; Uploaded; Uploaded] fresh.
Definition d0 : data nat := {| d_step := 0; d_state := 1; d_rows := [(0, 1)] |}.
Definition d2 : data nat := {| d_step := 2; d_state := 6; d_rows := [(0, 1); (1, 3); (2, 6)] |}.
Lemma w5_is : rem w5 = [(data_name P 0, Whole d0); (data_name P 2, Whole d2)] /\ loc w5 = [(data_name P 0, Whole d0); (data_name P 2, Whole d2)] /\ rloc w5 = [] /\ rrem w5 = [].
Proof. vm_compute. auto. Qed.
Lemma d0_genuine : genuine nat 0 xiter xrej d0. Proof. apply (Next nat 0 xiter xrej [] 0 0 0 1); [apply Begin|apply Here|reflexivity]. Qed.
Lemma d2_genuine : genuine nat 0 xiter xrej d2.
Proof.
  apply (Next nat 0 xiter xrej [(0, 1); (1, 3)] 3 2 3 6); [|apply Here|reflexivity]. apply (Next nat 0 xiter xrej [(0, 1)] 1 1 1 3); [|apply Here|reflexivity]. apply (Next nat 0 xiter xrej [] 0 0 0 1); [apply Begin|apply Here|reflexivity].
Qed.
(** Full statement: a start that cannot fetch the remote data fails.  False: the error of hdfs is swallowed. *)
Theorem C90_failed_download_refuted : exists w w' m, hist Hdfs w /\ In (data_name P 2, Whole d2) (rem w) /\ genuine nat 0 xiter xrej d2 /\ event nat P 2 0 xiter xrej Hdfs w w' /\ proc w' = Some m /\ t m = 0.
Proof.
  exists (lost w5). eexists. eexists. split; [eapply Later; [apply runs_hist, fresh_hist|apply Lose]|]. destruct w5_is as [R [_ [RL RR]]]. split; [unfold lost; cbn [rem]; rewrite R; right; left; reflexivity|]. split; [exact d2_genuine|].
  split; [apply (Start nat P 2 0 xiter xrej Hdfs (lost w5) Failed Done (rem w5) [] [] [])|split].
  - reflexivity.
  - cbn [ls]. reflexivity.
  - cbn [ls lost rrem]. rewrite RR. constructor.
  - rewrite R. vm_compute. constructor.
  - vm_compute. constructor.
  - reflexivity.
  - reflexivity.
Qed.
(** ** An upload killed once stops every later start on another machine *)
Definition wk : world nat := lost (runs Hdfs [Uploaded; Uploaded; Uploaded; Uploaded; KilledRemote] fresh).
Lemma wk_is : wk = {| loc := []; rem := [(data_name P 0, Whole d0); (copying (data_name P 2), Part)]; rloc := []; rrem := []; proc := None |}.
Proof. vm_compute. reflexivity. Qed.
Inductive retries : world nat -> world nat -> Prop :=
| Same w : retries w w
| Again w w1 w2 : retries w w1 -> started nat 0 P Hdfs w1 w2 -> retries w w2
| Elsewhere w w1 : retries w w1 -> retries w (lost w1).
Lemma leftover_stuck w w' : rem w = [(data_name P 0, Whole d0); (copying (data_name P 2), Part)] -> rloc w = [] -> rrem w = [] -> (forall e, In e (loc w) -> e = (copying (data_name P 2), Part)) -> started nat 0 P Hdfs w w' ->
  rem w' = rem w /\ rloc w' = [] /\ rrem w' = [] /\ (forall e, In e (loc w') -> e = (copying (data_name P 2), Part)) /\ proc w' = None.
Proof.
  intros R RL RR LC ST. destruct ST as [w l1 l2 l3 l4 L1 L2 loc' rloc' L3 L4]. cbn [loc rem rloc rrem proc]. cbn [ls] in L1, L2. rewrite RR in L2. apply Permutation_nil in L2. subst l2.
  assert (ER : rloc' = []) by (subst rloc'; exact RL). rewrite ER in L4. apply Permutation_nil in L4. subst l4. rewrite app_nil_r.
  assert (I2 : In (copying (data_name P 2), Part) l1) by (apply (Permutation_in _ L1); rewrite R; right; left; reflexivity).
  assert (F : find_latest nat P l1 = Some (copying (data_name P 2), Part, 2)).
  { destruct (find_latest nat P l1) as [[[n c] k]|] eqn:F; [|pose proof (latest_none _ _ _ F _ I2) as X; cbn [fst] in X; rewrite index_copying in X; discriminate].
    destruct (latest_some _ _ _ _ _ _ F) as [I [K M]]. specialize (M _ 2 I2 (index_copying _ _)). apply (Permutation_in _ (Permutation_sym L1)) in I. rewrite R in I. destruct I as [E|[E|[]]]; injection E as <- <-; [rewrite C90_names in K; injection K as <-; lia|]. rewrite index_copying in K. injection K as <-. reflexivity. }
  assert (ALL : (forall e, In e loc' -> e = (copying (data_name P 2), Part)) /\ exists e, In e loc').
  { unfold loc', download. rewrite F. split.
    - intros e I. cbn [get] in I. destruct (has nat (copying (data_name P 2)) (loc w)); [apply LC, I|]. apply put_at_In in I. destruct I as [I|[I _]]; [exact I|]. apply remove_In in I. apply LC, I.
    - cbn [get]. destruct (has nat (copying (data_name P 2)) (loc w)) eqn:HS; [|eexists; apply put_at_In; left; reflexivity]. unfold has in HS. apply existsb_exists in HS. destruct HS as [e [I _]]. exists e. exact I. }
  destruct ALL as [ALL [e I]]. split; [reflexivity|]. split; [exact ER|]. split; [exact RR|]. split; [exact ALL|].
  destruct (find_latest nat P l3) as [[[n c] k]|] eqn:F3.
  - apply latest_some in F3. destruct F3 as [J _]. apply (Permutation_in _ (Permutation_sym L3)) in J. specialize (ALL _ J). injection ALL as -> ->. reflexivity.
  - pose proof (ALL _ I) as E. subst e. apply (Permutation_in _ L3) in I. pose proof (latest_none _ _ _ F3 _ I) as X. cbn [fst] in X. rewrite index_copying in X. discriminate.
Qed.
(** Full statement: with whole data in the remote path a new machine can continue.  False: the leftover of a killed [hdfs -put]
    is taken for the newest data file, by every later start. *)
Theorem C90_leftover_refuted : exists w, hist Hdfs w /\ In (data_name P 0, Whole d0) (rem w) /\ genuine nat 0 xiter xrej d0 /\ (exists w', started nat 0 P Hdfs w w') /\ forall w', retries w w' -> proc w' = None.
Proof.
  exists wk. split; [unfold wk; eapply Later; [apply runs_hist, fresh_hist|apply Lose]|]. rewrite wk_is. cbn [rem]. split; [left; reflexivity|]. split; [exact d0_genuine|]. split.
  { eexists. eapply (Started nat 0 P Hdfs); [cbn [ls rem]; apply Permutation_refl|cbn [ls rrem]; apply Permutation_refl|apply Permutation_refl|apply Permutation_refl]. }
  intros w' H. assert (Q : rem w' = [(data_name P 0, Whole d0); (copying (data_name P 2), Part)] /\ rloc w' = [] /\ rrem w' = [] /\ (forall e, In e (loc w') -> e = (copying (data_name P 2), Part)) /\ proc w' = None); [|tauto].
  rewrite <- wk_is in H. remember wk as w eqn:E. induction H as [w|w w1 w2 H IH ST|w w1 H IH].
  - subst w. rewrite wk_is. cbn [loc rem rloc rrem proc]. repeat split; auto. intros e [].
  - destruct (IH E) as [A [B [D [F _]]]]. destruct (leftover_stuck w1 w2 A B D F ST) as [A' [B' [D' [F' G']]]]. split; [rewrite A'; exact A|]. auto.
  - destruct (IH E) as [A [B [D [F _]]]]. unfold lost. cbn [loc rem rloc rrem proc]. split; [exact A|]. split; [reflexivity|]. split; [exact D|]. split; [intros e []|reflexivity].
Qed.
(** ** A torn local file hides the good remote file of the same step *)
Definition wt : world nat := with_proc nat (stored_as nat P w5 Hdfs KilledLocal [Good d2]) None.
Lemma wt_is : wt = {| loc := [(data_name P 0, Whole d0); (data_name P 2, Part)]; rem := [(data_name P 0, Whole d0); (data_name P 2, Whole d2)]; rloc := []; rrem := []; proc := None |}.
Proof. unfold wt, stored_as. destruct w5_is as [-> [-> [-> ->]]]. vm_compute. reflexivity. Qed.
(** Full statement: a torn local copy is replaced by the whole remote one.  False: [hdfs -get] does not overwrite. *)
Theorem C90_torn_local_refuted : exists w, hist Hdfs w /\ In (data_name P 2, Whole d2) (rem w) /\ genuine nat 0 xiter xrej d2 /\ forall w', started nat 0 P Hdfs w w' -> proc w' = None /\ loc w' = loc w /\ rem w' = rem w.
Proof.
  exists wt. split.
  { eapply Later; [apply runs_hist, (fresh_hist Hdfs)|]. assert (PM : exists m, proc w5 = Some m /\ data_at m (safe_step m) = Some d2) by (vm_compute; eexists; split; reflexivity). destruct PM as [m [PM SF]]. pose proof (Leave nat P 2 0 xiter xrej Hdfs w5 m KilledLocal PM) as EV. rewrite SF in EV. exact EV. }
  rewrite wt_is. split; [right; left; reflexivity|]. split; [exact d2_genuine|]. intros w' ST. inversion ST as [w1 l1 l2 l3 l4 L1 L2 loc' rloc' L3 L4 E1 E2]. subst w1. cbn [loc rem rloc rrem proc ls] in *.
  apply Permutation_nil in L2. subst l2. apply Permutation_nil in L4. subst l4. rewrite app_nil_r.
  assert (I2 : In (data_name P 2, Whole d2) l1) by (apply (Permutation_in _ L1); right; left; reflexivity).
  assert (EL : loc' = [(data_name P 0, Whole d0); (data_name P 2, Part)]).
  { unfold loc', download. destruct (find_latest nat P l1) as [[[n c] k]|] eqn:F; [|reflexivity]. destruct (latest_some _ _ _ _ _ _ F) as [I _]. apply (Permutation_in _ (Permutation_sym L1)) in I. destruct I as [E|[E|[]]]; injection E as <- <-; vm_compute; reflexivity. }
  split; [|split; [exact EL|reflexivity]]. rewrite EL in L3. assert (J2 : In (data_name P 2, (Part : content nat)) l3) by (apply (Permutation_in _ L3); right; left; reflexivity).
  destruct (find_latest nat P l3) as [[[n c] k]|] eqn:F; [|pose proof (latest_none _ _ _ F _ J2) as X; cbn [fst] in X; rewrite C90_names in X; discriminate].
  destruct (latest_some _ _ _ _ _ _ F) as [I [K M]]. specialize (M _ 2 J2 (C90_names _ _)). apply (Permutation_in _ (Permutation_sym L3)) in I. destruct I as [E|[E|[]]]; injection E as <- <-; [rewrite C90_names in K; injection K as <-; lia|reflexivity].
Qed.

(** ** lazy_setup *)
(** Full statement: with lazy_setup data can be loaded after entering the context.  False: entering sets the fields up but not the flag. *)
Theorem C90_lazy_refuted : forall n, may_load (Nat.iter n enter (construct true)) = false /\ fields (enter (Nat.iter n enter (construct true))) = true /\ may_load (Nat.iter n enter (construct false)) = true.
Proof.
  assert (E : forall f, already_setup (enter f) = already_setup f) by (intros [[|] x]; reflexivity).
  assert (A : forall b n, already_setup (Nat.iter n enter (construct b)) = already_setup (construct b)) by (intros b; induction n as [|n IH]; [reflexivity|exact (eq_trans (E _) IH)]).
  intros n. unfold may_load. rewrite !A. split; [reflexivity|]. split; [|reflexivity]. unfold enter at 1. rewrite A. reflexivity.
Qed.
(** ** Paths *)
(** Setting a path up raises exactly when a given local or remote path is a regular file; otherwise the given paths are directories afterwards, and a
    temporary local directory is used exactly when no local path is given. *)
Theorem C90_paths : forall lg rg l r, (setup_path lg rg l r = None <-> (lg = true /\ l = Regular) \/ (rg = true /\ r = Regular)) /\
  forall l' r' tmp, setup_path lg rg l r = Some (l', r', tmp) -> (lg = true -> l' = Directory) /\ (rg = true -> r' = Directory) /\ (tmp = true <-> lg = false).
Proof.
  intros lg rg l r. unfold setup_path. split.
  - destruct lg, rg, l, r; cbn; split; intros H; try discriminate; auto; destruct H as [[A B]|[A B]]; discriminate.
  - destruct lg, rg, l, r; cbn; intros l' r' tmp H; try discriminate; injection H as <- <- <-; repeat split; intros; congruence.
Qed.

(** ** Cases *)
Lemma calm_go h w : calm nat 0 xiter xrej P 2 h w -> calm nat 0 xiter xrej P 2 h (go h Uploaded w).
Proof.
  intros H. unfold go. destruct (proc w) as [m|] eqn:PM; [|exact H]. eapply Calm_then; [exact H|].
  set (r := run nat 2 Good [] m (cur m + t m + 1)). replace (still nat h Uploaded (snd r)) with true by (destruct (snd r); reflexivity). apply C_succeed; [exact PM|reflexivity].
Qed.
Lemma calm_runs h : forall n w, calm nat 0 xiter xrej P 2 h w -> calm nat 0 xiter xrej P 2 h (runs h (repeat Uploaded n) w).
Proof. induction n as [|n IH]; intros w H; [exact H|]. cbn. apply IH, calm_go, H. Qed.
(** nine steps, then another machine continues after step 6 *)
Example C90_survives_case : exists w m, calm nat 0 xiter xrej P 2 Hdfs w /\ proc w = Some m /\ t m = 9 /\ exists w' m', started nat 0 P Hdfs (lost w) w' /\ proc w' = Some m' /\ t m' = 7.
Proof.
  set (w := runs Hdfs (repeat Uploaded 9) fresh). assert (CA : calm nat 0 xiter xrej P 2 Hdfs w).
  { apply calm_runs. eapply Calm_then; [apply Calm_first with (w := empty); repeat split; intros ? ? []|]. apply C_start; [reflexivity|apply fresh_started]. }
  exists w. assert (Q : exists m, proc w = Some m /\ t m = 9) by (vm_compute; eexists; split; reflexivity). destruct Q as [m [PM T]]. exists m. split; [exact CA|]. split; [exact PM|]. split; [exact T|].
  eexists. eexists. split; [eapply (Started nat 0 P Hdfs); [cbn [ls]; apply Permutation_refl|cbn [ls]; apply Permutation_refl|apply Permutation_refl|apply Permutation_refl]|]. vm_compute. split; reflexivity.
Qed.
Print Assumptions C90_trace. Print Assumptions C90_survives. Print Assumptions C90_newest. Print Assumptions C90_leftover_refuted. Print Assumptions C90_remote_copy_refuted.
